(** What the inverse of a block matrix is, and what the operations on one block achieve. *)
From Verif Require Import Common YBusSpec SparseLU SparseLUSpec SelInv.

Section Spec.
Context {T V Q : Type}.
(** the n times n block matrices A and B are inverse to each other *)
Definition inverse_of (o : block_ops T V Q) (a : block_algebra T V Q) (one : T) (n : nat) (A B : nat -> nat -> T) : Prop :=
  forall i j, i < n -> j < n ->
    sum_n (a_add a) (a_0 a) n (fun k => b_mul o (A i k) (B k j)) = (if i =? j then one else a_0 a) /\
    sum_n (a_add a) (a_0 a) n (fun k => b_mul o (B i k) (A k j)) = (if i =? j then one else a_0 a).

(** [data] holds the blocks of [B] at the entries of the pattern *)
Definition holds_blocks (pt : pattern) (data : list T) (B : nat -> nat -> T) : Prop :=
  length data = length (cols pt) /\ forall e i j, csr_at (indptr pt) (cols pt) e i j -> nth_error data e = Some (B i j).

(** one block: a unit; permutations are regular; the factors packed in an accepted pivot are regular, and the solves divide by them *)
Record inv_laws (o : block_ops T V Q) (a : block_algebra T V Q) (v : inv_ops T) (one : T) : Prop := {
  il_zero : i_zero v = a_0 a;
  il_add : forall x y, i_add v x y = a_add a x y;
  il_opp : forall x, i_opp v x = a_opp a x;
  il_one_l : forall x, b_mul o one x = x;
  il_one_r : forall x, b_mul o x one = x;
  il_perm : forall p, exists x, b_mul o x (a_pm a p) = one /\ b_mul o (a_pm a p) x = one;
  il_lower : forall x lu p q b, b_factor o x = Some (lu, p, q, b) -> exists y, b_mul o y (a_lo a lu) = one /\ b_mul o (a_lo a lu) y = one;
  il_upper : forall x lu p q b, b_factor o x = Some (lu, p, q, b) -> exists y, b_mul o y (a_up a lu) = one /\ b_mul o (a_up a lu) y = one;
  il_upper_left : forall x lu p q b, b_factor o x = Some (lu, p, q, b) -> forall u, b_mul o (a_up a lu) (i_upper_left v lu u) = u;
  il_lower_right : forall x lu p q b, b_factor o x = Some (lu, p, q, b) -> forall l, b_mul o (i_lower_right v lu l) (a_lo a lu) = l;
  il_inverse_lu : forall x lu p q b, b_factor o x = Some (lu, p, q, b) -> b_mul o (b_mul o (a_lo a lu) (a_up a lu)) (i_inverse_lu v lu) = one }.
End Spec.
