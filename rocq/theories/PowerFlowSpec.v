(** What sources, loads and the balance of a power flow mean. *)
From Verif Require Import Common Numbers ShortCircuit PowerFlow.

Section Spec.
Context {C : Type} (o : num_ops C) (cj cabs : C -> C) (a : C).
Local Notation "a + b" := (n_add o a b) : num_scope. Local Notation "a * b" := (n_mul o a b) : num_scope. Local Notation "a - b" := (n_sub o a b) : num_scope.
Local Notation "a / b" := (n_div o a b) : num_scope.
Local Notation zero := (n_zero o). Local Notation one := (n_one o). Local Notation three := (n_add o (n_add o one one) one).
Local Open Scope num_scope.

(** The numbers: conjugation is an automorphism, |x|^2 = x conj(x), 3 is not 0 and [a] is a primitive third root of unity. *)
Record pf_laws : Prop := {
  pf_num : num_laws o;
  pf_conj_add : forall x y, cj (x + y) = cj x + cj y;
  pf_conj_mul : forall x y, cj (x * y) = cj x * cj y;
  pf_conj_conj : forall x, cj (cj x) = x;
  pf_abs : forall x, cabs x * cabs x = x * cj x;
  pf_three : three <> zero;
  pf_root : one + a + a * a = zero }.

(** The zero, positive and negative sequence component (k = 0, 1, 2) of the phases of [x] *)
Definition sequence (k : nat) (x : nat -> C) : C :=
  match k with
  | 0 => (x 0 + x 1 + x 2) / three
  | 1 => (x 0 + a * x 1 + a * a * x 2) / three
  | _ => (x 0 + a * a * x 1 + a * x 2) / three
  end.
(** A source is a voltage [u_ref], in the positive sequence only, behind an admittance [y1] in the positive and negative and [y0] in the zero sequence:
    its current [i] at a bus with the voltages [u]. *)
Definition source_law (np : nat) (y1 y0 u_ref : C) (u i : nat -> C) : Prop :=
  if np =? 1 then i 0 = y1 * (u_ref - u 0)
  else sequence 0 i = y0 * (zero - sequence 0 u) /\ sequence 1 i = y1 * (u_ref - sequence 1 u) /\ sequence 2 i = y1 * (zero - sequence 2 u).
(** The power of a load or generator at the voltages [u], and its current *)
Definition load_power (np : nat) (ty : load_type) (s_specified u s : nat -> C) : Prop :=
  forall p, p < np -> s p = s_specified p * match ty with const_pq => one | const_y => cabs (u p) * cabs (u p) | const_i => cabs (u p) end.
Definition power_of (np : nat) (u i s : nat -> C) : Prop := forall p, p < np -> s p = u p * cj (i p).
(** The current that flows from bus [b] into the grid is the sum of the currents of its sources, loads and generators. *)
Definition kirchhoff (np n : nat) (ybus : nat -> nat -> nat -> nat -> C) (u : nat -> nat -> C) (currents : list (nat -> C)) (b : nat) : Prop :=
  forall p, p < np -> nsum o (map (fun j => nsum o (map (fun q => ybus b j p q * u j q) (seq 0 np))) (seq 0 n)) = nsum o (map (fun i => i p) currents).
End Spec.
