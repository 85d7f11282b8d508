(** The same state estimation with its buses, branches and shunts numbered otherwise, branches turned around, and all variances multiplied by a number. No proofs here. *)
From Coq Require Import Permutation.
From Verif Require Import Common Numbers ShortCircuit LinearSE LinearSESpec.

(** The sub-grid and the measurements, as in LinearSE.v *)
Record problem {C : Type} : Type := mkProblem {
  pr_branches : nat; pr_bus : nat -> bool -> option nat; pr_shunts : nat -> list nat;
  pr_branch : nat -> bool -> bool -> nat -> nat -> C; pr_shunt : nat -> nat -> nat -> C; pr_y : nat -> nat -> nat -> nat -> C;
  pr_voltage : nat -> option (voltage_measurement (C := C)); pr_power : nat -> bool -> option (rand (C := C)); pr_current : nat -> bool -> option (angle_type * rand (C := C));
  pr_shunt_power : nat -> option (rand (C := C)); pr_injection : nat -> option (rand (C := C)) }.
Arguments problem : clear implicits.

Section Spec.
Context {C : Type} (o : num_ops C) (c : C) (n : nat).
(** the same measured value, the variance times [c] *)
Definition rescaled (m m' : rand (C := C)) : Prop := forall p, value m' p = value m p /\ variance m' p = n_mul o c (variance m p).
Definition rescaled_option (m m' : option (rand (C := C))) : Prop :=
  match m, m' with None, None => True | Some m, Some m' => rescaled m m' | _, _ => False end.
Definition rescaled_voltage (m m' : option (voltage_measurement (C := C))) : Prop :=
  match m, m' with
  | None, None => True
  | Some m, Some m' => full m' = full m /\ (forall p, volt m' p = volt m p) /\ volt_var m' = n_mul o c (volt_var m)
  | _, _ => False
  end.
Definition rescaled_current (m m' : option (angle_type * rand (C := C))) : Prop :=
  match m, m' with None, None => True | Some m, Some m' => fst m' = fst m /\ rescaled (snd m) (snd m') | _, _ => False end.
(** Bus [b] becomes [r b], branch [k] becomes [rk k] and its sides are exchanged if [turned k], shunt [k] becomes [rs k].
    The admittance matrix is that of the renumbered grid (C18, C20, C64). *)
Record renumbered (r rk rs : nat -> nat) (turned : nat -> bool) (e e' : problem C) : Prop := {
  re_buses : Permutation (map r (seq 0 n)) (seq 0 n);
  re_branches : Permutation (map rk (seq 0 (pr_branches e))) (seq 0 (pr_branches e'));
  re_bus : forall k s, k < pr_branches e -> pr_bus e' (rk k) (xorb (turned k) s) = option_map r (pr_bus e k s);
  re_branch : forall k s b p q, k < pr_branches e -> pr_branch e' (rk k) (xorb (turned k) s) (xorb (turned k) b) p q = pr_branch e k s b p q;
  re_shunts : forall b, b < n -> Permutation (pr_shunts e' (r b)) (map rs (pr_shunts e b));
  re_shunt : forall b k p q, b < n -> In k (pr_shunts e b) -> pr_shunt e' (rs k) p q = pr_shunt e k p q;
  re_y : forall i j p q, i < n -> j < n -> pr_y e' (r i) (r j) p q = pr_y e i j p q;
  re_voltage : forall b, b < n -> rescaled_voltage (pr_voltage e b) (pr_voltage e' (r b));
  re_power : forall k s, k < pr_branches e -> rescaled_option (pr_power e k s) (pr_power e' (rk k) (xorb (turned k) s));
  re_current : forall k s, k < pr_branches e -> rescaled_current (pr_current e k s) (pr_current e' (rk k) (xorb (turned k) s));
  re_shunt_power : forall b k, b < n -> In k (pr_shunts e b) -> rescaled_option (pr_shunt_power e k) (pr_shunt_power e' (rs k));
  re_injection : forall b, b < n -> rescaled_option (pr_injection e b) (pr_injection e' (r b)) }.
End Spec.
