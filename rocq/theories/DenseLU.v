(** The factorisation of one dense block and the triangular solves with it (math_solver/sparse_lu_solver.hpp 86-227), in exact
    arithmetic over any field. *)
From mathcomp Require Import all_ssreflect all_fingroup all_algebra.
Set Implicit Arguments. Unset Strict Implicit. Unset Printing Implicit Defensive.
Import GRing.Theory. Local Open Scope ring_scope.

Section DenseLU.
Variables (F : fieldType) (n : nat).
(** 105-107: position of the biggest entry of the bottom right corner from the pivot on *)
Variable biggest : 'I_n -> 'M[F]_n -> 'I_n * 'I_n.
(** 40-48: Some: the value that replaces a pivot smaller than the threshold *)
Variable perturb : F -> option F.
Variable use_perturbation : bool.
(** 156-164: the test on a diagonal entry of the result; the threshold depends on the largest pivot and on earlier perturbations,
    so the test is a parameter *)
Variable accept : 'M[F]_n -> 'I_n -> bool.

Definition set_entry (r c : 'I_n) (v : F) (M : 'M[F]_n) : 'M[F]_n := \matrix_(i, j) if (i == r) && (j == c) then v else M i j.
(** 141-147: divide the pivot column below the pivot, then update the bottom right corner. At the last pivot nothing is left to do. *)
Definition gauss (p : 'I_n) (M : 'M[F]_n) : 'M[F]_n :=
  let M1 : 'M[F]_n := \matrix_(i, j) if (p < i)%N && (j == p) then M i j / M p p else M i j in
  \matrix_(i, j) if (p < i)%N && (p < j)%N then M1 i j - M1 i p * M1 p j else M1 i j.

(** 97-148: transpositions of rows and columns in order, and whether a pivot was perturbed; [stop]: 113-120 *)
Record fstate := FState { f_mx : 'M[F]_n; f_rows : seq ('I_n * 'I_n); f_cols : seq ('I_n * 'I_n); f_pert : bool; f_stop : bool }.
Definition pivot_block (s : fstate) (p : 'I_n) : fstate :=
  let (r, c) := biggest p (f_mx s) in
  if f_stop s || ((f_mx s r c == 0) && ~~ use_perturbation)
  then FState (f_mx s) (rcons (f_rows s) (p, p)) (rcons (f_cols s) (p, p)) (f_pert s) true
  else
    let (M, pert) := if perturb (f_mx s r c) is Some v then (set_entry r c v (f_mx s), true) else (f_mx s, f_pert s) in
    FState (gauss p (xcol p c (xrow p r M))) (rcons (f_rows s) (p, r)) (rcons (f_cols s) (p, c)) pert false.

(** Eigen's PermutationMatrix with indices s: entry (s j, j) is one; applyTranspositionOnTheRight(i, j) swaps indices i and j *)
Definition perm_matrix (s : 'S_n) : 'M[F]_n := perm_mx (s^-1)%g.
Definition transpose_right (s : 'S_n) (ij : 'I_n * 'I_n) : 'S_n := (tperm ij.1 ij.2 * s)%g.
(** 151-154: from the last transposition to the first *)
Definition row_permutation (ts : seq ('I_n * 'I_n)) : 'S_n := foldl transpose_right 1%g (rev ts).
(** 155-158 *)
Definition col_permutation (ts : seq ('I_n * 'I_n)) : 'S_n := foldl transpose_right 1%g ts.

(** 86-165; None: SparseMatrixError *)
Definition factorize_block (A : 'M[F]_n) : option ('M[F]_n * 'S_n * 'S_n * bool) :=
  let s := foldl pivot_block (FState A [::] [::] false false) (enum 'I_n) in
  if all (accept (f_mx s)) (enum 'I_n) then Some (f_mx s, row_permutation (f_rows s), col_permutation (f_cols s), f_pert s) else None.

(** 171-200 *)
Section Solve.
Variables (m : nat) (lu : 'M[F]_n).
Definition sub_row (i k : 'I_n) (X : 'M[F]_(n, m)) : 'M[F]_(n, m) := \matrix_(r, j) if r == i then X r j - lu i k * X k j else X r j.
Definition div_row (i : 'I_n) (X : 'M[F]_(n, m)) : 'M[F]_(n, m) := \matrix_(r, j) if r == i then X r j / lu i i else X r j.
Definition sub_col (i k : 'I_n) (X : 'M[F]_(m, n)) : 'M[F]_(m, n) := \matrix_(r, j) if j == i then X r j - lu k i * X r k else X r j.
Definition div_col (i : 'I_n) (X : 'M[F]_(m, n)) : 'M[F]_(m, n) := \matrix_(r, j) if j == i then X r j / lu i i else X r j.
(** the indices in order of traversal; [before]: those already handled *)
Fixpoint solve_left (upper : bool) (before order : seq 'I_n) (X : 'M[F]_(n, m)) : 'M[F]_(n, m) :=
  if order is i :: order' then
    let X := foldl (fun X k => sub_row i k X) X before in
    solve_left upper (rcons before i) order' (if upper then div_row i X else X)
  else X.
Fixpoint solve_right (upper : bool) (before order : seq 'I_n) (X : 'M[F]_(m, n)) : 'M[F]_(m, n) :=
  if order is i :: order' then
    let X := foldl (fun X k => sub_col i k X) X before in
    solve_right upper (rcons before i) order' (if upper then div_col i X else X)
  else X.
Definition forward := enum 'I_n.
Definition backward := rev (enum 'I_n).
Definition solve_left_lower := solve_left false [::] forward.
Definition solve_left_upper := solve_left true [::] backward.
Definition solve_right_lower := solve_right false [::] backward.
Definition solve_right_upper := solve_right true [::] forward.
End Solve.

(** 206-214 *)
Definition inverse_factorized_block (lu : 'M[F]_n) : 'M[F]_n := solve_left_upper lu (solve_left_lower lu 1%:M).
(** products with a permutation matrix move rows and columns *)
Definition permute_rows {m} (s : 'S_n) (X : 'M[F]_(n, m)) : 'M[F]_(n, m) := \matrix_(i, j) X ((s^-1)%g i) j.
Definition permute_cols {m} (X : 'M[F]_(m, n)) (s : 'S_n) : 'M[F]_(m, n) := \matrix_(i, j) X i (s j).
(** 217-227 *)
Definition dense_inverse (lu : 'M[F]_n) (p q : 'S_n) : 'M[F]_n := permute_cols (permute_rows q (inverse_factorized_block lu)) p.
End DenseLU.
