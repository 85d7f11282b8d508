(** What a dense factorisation is: P * A * Q = L * U. *)
From mathcomp Require Import all_ssreflect all_fingroup all_algebra.
Set Implicit Arguments. Unset Strict Implicit. Unset Printing Implicit Defensive.
Import GRing.Theory. Local Open Scope ring_scope.

Section Spec.
Variables (F : fieldType) (n : nat).
(** the factors packed in one matrix: L with ones on the diagonal, U with the stored diagonal *)
Definition lower_of (M : 'M[F]_n) : 'M[F]_n := \matrix_(i, j) if (j < i)%N then M i j else (i == j)%:R.
Definition upper_of (M : 'M[F]_n) : 'M[F]_n := \matrix_(i, j) if (i <= j)%N then M i j else 0.
(** each row and each column has a single one *)
Definition is_permutation (P : 'M[F]_n) : Prop := exists s : 'S_n, P = perm_mx s.
(** the position returned lies in the corner, and it holds zero only if the corner is zero *)
Definition picks_biggest (biggest : 'I_n -> 'M[F]_n -> 'I_n * 'I_n) : Prop := forall p M,
  let (r, c) := biggest p M in (p <= r)%N /\ (p <= c)%N /\ (M r c = 0 -> forall i j : 'I_n, (p <= i)%N -> (p <= j)%N -> M i j = 0).
End Spec.
