(** What a factorisation and a solution of a sparse block system are. *)
From Verif Require Import Common YBusSpec SparseLU.

(** a pattern for elimination in order: rows compressed, diagonal present, symmetric, and closed under elimination *)
Record pattern_ok (n : nat) (pt : pattern) : Prop := {
  pk_csr : csr n (indptr pt) (cols pt);
  pk_diag : length (diag pt) = n /\ forall i e, nth_error (diag pt) i = Some e -> csr_at (indptr pt) (cols pt) e i i;
  pk_sym : forall e i j, csr_at (indptr pt) (cols pt) e i j -> exists e', csr_at (indptr pt) (cols pt) e' j i;
  pk_closed : forall i j k, i < j -> i < k -> (exists e, csr_at (indptr pt) (cols pt) e i j) -> (exists e, csr_at (indptr pt) (cols pt) e i k) ->
    exists e, csr_at (indptr pt) (cols pt) e j k }.

Section Spec.
Context {T V Q : Type}.
(** the algebra that blocks and block vectors live in; [pm]: the matrix of a permutation; [lo], [up]: the factors packed in a block *)
Record block_algebra : Type := mkAlgebra {
  a_add : T -> T -> T; a_0 : T; a_opp : T -> T;
  a_vadd : V -> V -> V; a_v0 : V; a_vopp : V -> V;
  a_pm : Q -> T; a_lo : T -> T; a_up : T -> T }.

(** a ring (multiplication need not commute) acting on vectors, and what the operations inside a block achieve *)
Record block_laws (o : block_ops T V Q) (a : block_algebra) : Prop := {
  bl_comm : forall x y, a_add a x y = a_add a y x;
  bl_assoc : forall x y z, a_add a x (a_add a y z) = a_add a (a_add a x y) z;
  bl_zero : forall x, a_add a x (a_0 a) = x;
  bl_opp : forall x, a_add a x (a_opp a x) = a_0 a;
  bl_sub : forall x y, b_sub o x y = a_add a x (a_opp a y);
  bl_mul_assoc : forall x y z, b_mul o x (b_mul o y z) = b_mul o (b_mul o x y) z;
  bl_mul_add : forall x y z, b_mul o x (a_add a y z) = a_add a (b_mul o x y) (b_mul o x z);
  bl_add_mul : forall x y z, b_mul o (a_add a x y) z = a_add a (b_mul o x z) (b_mul o y z);
  bl_vcomm : forall x y, a_vadd a x y = a_vadd a y x;
  bl_vassoc : forall x y z, a_vadd a x (a_vadd a y z) = a_vadd a (a_vadd a x y) z;
  bl_vzero : forall x, a_vadd a x (a_v0 a) = x;
  bl_vopp : forall x, a_vadd a x (a_vopp a x) = a_v0 a;
  bl_vsub : forall x y, b_vsub o x y = a_vadd a x (a_vopp a y);
  bl_act_mul : forall x y v, b_act o (b_mul o x y) v = b_act o x (b_act o y v);
  bl_act_add : forall x v w, b_act o x (a_vadd a v w) = a_vadd a (b_act o x v) (b_act o x w);
  bl_add_act : forall x y v, b_act o (a_add a x y) v = a_vadd a (b_act o x v) (b_act o y v);
  bl_perm_left : forall p x, b_perm_left o p x = b_mul o (a_pm a p) x;
  bl_perm_right : forall x q, b_perm_right o x q = b_mul o x (a_pm a q);
  bl_perm_v : forall p v, b_perm_v o p v = b_act o (a_pm a p) v;
  bl_perm_cancel : forall p v w, b_act o (a_pm a p) v = b_act o (a_pm a p) w -> v = w;
  (** a pivot factored without perturbation: P * x * Q = L * U *)
  bl_factor : forall x lu p q, b_factor o x = Some (lu, p, q, false) -> b_mul o (b_mul o (a_pm a p) x) (a_pm a q) = b_mul o (a_lo a lu) (a_up a lu);
  (** the triangular solves, for every packed pivot that was accepted *)
  bl_solve_lower : forall x lu p q b, b_factor o x = Some (lu, p, q, b) -> forall u, b_mul o (a_lo a lu) (b_solve_lower o lu u) = u;
  bl_solve_lower_0 : forall x lu p q b, b_factor o x = Some (lu, p, q, b) -> b_solve_lower o lu (a_0 a) = a_0 a;
  bl_solve_right_upper : forall x lu p q b, b_factor o x = Some (lu, p, q, b) -> forall l, b_mul o (b_solve_right_upper o lu l) (a_up a lu) = l;
  bl_solve_right_upper_0 : forall x lu p q b, b_factor o x = Some (lu, p, q, b) -> b_solve_right_upper o lu (a_0 a) = a_0 a;
  bl_solve_lower_v : forall x lu p q b, b_factor o x = Some (lu, p, q, b) -> forall v, b_act o (a_lo a lu) (b_solve_lower_v o lu v) = v;
  bl_solve_upper_v : forall x lu p q b, b_factor o x = Some (lu, p, q, b) -> forall v, b_act o (a_up a lu) (b_solve_upper_v o lu v) = v }.

(** [data] holds the matrix [A]: the entries of the pattern in order, zero elsewhere *)
Definition is_matrix (pt : pattern) (zero : T) (data : list T) (A : nat -> nat -> T) : Prop :=
  length data = length (cols pt) /\
  (forall e i j, csr_at (indptr pt) (cols pt) e i j -> nth_error data e = Some (A i j)) /\
  (forall i j, (~ exists e, csr_at (indptr pt) (cols pt) e i j) -> A i j = zero).

(** f 0 + ... + f (n-1) *)
Fixpoint sum_n {X} (add : X -> X -> X) (zero : X) (n : nat) (f : nat -> X) : X :=
  match n with O => zero | S m => add (sum_n add zero m f) (f m) end.

(** the factors stored in [F]: unit lower and upper block triangle, the diagonal blocks packed *)
Definition lower (a : block_algebra) (F : nat -> nat -> T) (i k : nat) : T :=
  if k <? i then F i k else if k =? i then a_lo a (F i i) else a_0 a.
Definition upper (a : block_algebra) (F : nat -> nat -> T) (k j : nat) : T :=
  if k <? j then F k j else if k =? j then a_up a (F j j) else a_0 a.
End Spec.
Arguments block_algebra : clear implicits.
