(** Complex numbers as pairs of exact numbers: std::complex, for the code that takes numbers apart into real and imaginary parts. *)
From Coq Require Import Field.
From Verif Require Import Common Numbers.

Section Pair.
Context {R : Type} (o : num_ops R).
Local Notation "a + b" := (n_add o a b) : num_scope. Local Notation "a * b" := (n_mul o a b) : num_scope. Local Notation "a - b" := (n_sub o a b) : num_scope.
Local Notation "a / b" := (n_div o a b) : num_scope. Local Notation "- a" := (n_opp o a) : num_scope.
Local Notation zero := (n_zero o). Local Notation one := (n_one o).
Local Open Scope num_scope.

Definition cx : Type := (R * R)%type.
Definition re (z : cx) : R := fst z.
Definition im (z : cx) : R := snd z.
Definition cconj (z : cx) : cx := (re z, - im z).
Definition cadd (z w : cx) : cx := (re z + re w, im z + im w).
Definition csub (z w : cx) : cx := (re z - re w, im z - im w).
Definition copp (z : cx) : cx := (- re z, - im z).
Definition cmul (z w : cx) : cx := (re z * re w - im z * im w, re z * im w + im z * re w).
Definition norm2 (z : cx) : R := re z * re z + im z * im z.
Definition cinv (z : cx) : cx := (re z / norm2 z, - im z / norm2 z).
Definition cdiv (z w : cx) : cx := cmul z (cinv w).
Definition pair_num : num_ops cx := mkNum (zero, zero) (one, zero) cadd cmul csub copp cdiv cinv.

Hypothesis L : num_laws o.
(** the numbers are real: a sum of two squares is 0 only if both are *)
Hypothesis real : forall x y, x * x + y * y = zero -> x = zero /\ y = zero.
Add Field NumFieldPair : (nl_field o L).
Lemma pair_eq (z w : cx) : re z = re w -> im z = im w -> z = w.
Proof. destruct z, w. cbn. intros -> ->. reflexivity. Qed.
Lemma pair_num_laws : num_laws pair_num.
Proof.
  constructor. constructor.
  - constructor; cbn [n_zero n_one n_add n_mul n_sub n_opp pair_num]; intros; apply pair_eq; cbn [re im cadd cmul csub copp fst snd]; ring.
  - cbn. intros H. injection H as H. exact (F_1_neq_0 (nl_field o L) H).
  - reflexivity.
  - intros p Hp. cbn [n_mul n_inv n_one pair_num].
    assert (N : re p * re p + im p * im p <> zero).
    { intros H. destruct (real _ _ H) as [H1 H2]. apply Hp. apply pair_eq; assumption. }
    apply pair_eq; unfold cinv, norm2; cbn [re im cmul fst snd]; fold (re p) (im p); field; exact N.
Qed.
End Pair.
