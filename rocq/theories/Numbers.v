(** Exact arithmetic in place of double and std::complex<double>: a field, given by its operations; the theorems hold for every one of them. *)
From Coq Require Import Field.
From Verif Require Import Common.

Record num_ops (C : Type) : Type := mkNum {
  n_zero : C; n_one : C; n_add : C -> C -> C; n_mul : C -> C -> C; n_sub : C -> C -> C; n_opp : C -> C; n_div : C -> C -> C; n_inv : C -> C }.
Arguments mkNum {C}. Arguments n_zero {C}. Arguments n_one {C}. Arguments n_add {C}. Arguments n_mul {C}. Arguments n_sub {C}. Arguments n_opp {C}.
Arguments n_div {C}. Arguments n_inv {C}.
Record num_laws {C : Type} (o : num_ops C) : Prop := {
  nl_field : field_theory (n_zero o) (n_one o) (n_add o) (n_mul o) (n_sub o) (n_opp o) (n_div o) (n_inv o) eq }.

Declare Scope num_scope.
Section Sums.
Context {C : Type} (o : num_ops C).
(** sums, and a natural number as a number *)
Definition nsum (l : list C) : C := fold_right (n_add o) (n_zero o) l.
Definition nnum (n : nat) : C := nsum (repeat (n_one o) n).
Hypothesis L : num_laws o.
Add Field NumField : (nl_field o L).

Local Notation "a + b" := (n_add o a b) : num_scope. Local Notation "a * b" := (n_mul o a b) : num_scope. Local Notation "a - b" := (n_sub o a b) : num_scope.
Local Notation "- a" := (n_opp o a) : num_scope. Local Notation "0" := (n_zero o) : num_scope. Local Notation "1" := (n_one o) : num_scope.
Local Open Scope num_scope.
Lemma nsum_app l l' : nsum (l ++ l') = nsum l + nsum l'.
Proof. unfold nsum. induction l as [|a l IH]; cbn [app fold_right]; [ring|]. rewrite IH. ring. Qed.
Lemma nsum_add {A} (f g : A -> C) l : nsum (map (fun x => f x + g x) l) = nsum (map f l) + nsum (map g l).
Proof. unfold nsum. induction l as [|a l IH]; cbn [map fold_right]; [ring|]. rewrite IH. ring. Qed.
Lemma nsum_sub {A} (f g : A -> C) l : nsum (map (fun x => f x - g x) l) = nsum (map f l) - nsum (map g l).
Proof. unfold nsum. induction l as [|a l IH]; cbn [map fold_right]; [ring|]. rewrite IH. ring. Qed.
Lemma nsum_scale {A} (f : A -> C) k l : nsum (map (fun x => k * f x) l) = k * nsum (map f l).
Proof. unfold nsum. induction l as [|a l IH]; cbn [map fold_right]; [ring|]. rewrite IH. ring. Qed.
Lemma nsum_zero {A} (f : A -> C) l : (forall x, In x l -> f x = 0) -> nsum (map f l) = 0.
Proof.
  unfold nsum. induction l as [|a l IH]; intros H; cbn [map fold_right]; [reflexivity|].
  rewrite IH by (intros x Hx; apply H; right; exact Hx). rewrite (H a) by (left; reflexivity). ring.
Qed.
Lemma nsum_ext {A} (f g : A -> C) l : (forall x, In x l -> f x = g x) -> nsum (map f l) = nsum (map g l).
Proof. intros H. f_equal. apply map_ext_in. exact H. Qed.
Lemma nsum_swap {A B} (f : A -> B -> C) l l' : nsum (map (fun a => nsum (map (f a) l')) l) = nsum (map (fun b => nsum (map (fun a => f a b) l)) l').
Proof.
  induction l as [|a l IH]; [symmetry; apply nsum_zero; reflexivity|].
  cbn [map]. change (nsum (nsum (map (f a) l') :: map (fun a0 => nsum (map (f a0) l')) l)) with (nsum (map (f a) l') + nsum (map (fun a0 => nsum (map (f a0) l')) l)).
  rewrite IH, <- nsum_add. apply nsum_ext. intros x _. reflexivity.
Qed.
End Sums.

(** The rational numbers. *)
From Coq Require Import QArith Qcanon.
Definition qc_num : num_ops Qc := mkNum 0%Qc 1%Qc Qcplus Qcmult Qcminus Qcopp Qcdiv Qcinv.
Lemma qc_num_laws : num_laws qc_num.
Proof. constructor. exact Qcft. Qed.
