(** C22 with the dense blocks of C23: every block size, every field. *)
From mathcomp Require Import all_ssreflect all_fingroup all_algebra.
From Verif Require Import SparseLU SparseLUSpec SparseLUProps DenseLU DenseLUSpec DenseLUProps.
Set Implicit Arguments. Unset Strict Implicit. Unset Printing Implicit Defensive.
Import GRing.Theory. Local Open Scope ring_scope.

Section Blocks.
Variables (F : fieldType) (b : nat) (biggest : 'I_b -> 'M[F]_b -> 'I_b * 'I_b) (perturb : F -> option F) (use_perturbation : bool) (accept : 'M[F]_b -> 'I_b -> bool).
(** sparse_lu_solver.hpp 277-300, 366-490: blocks of size b, right hand sides of b entries *)
Definition dense_ops : block_ops 'M[F]_b 'cV[F]_b 'S_b :=
  mkBlockOps (fun x y => x - y) (fun x y => x *m y) (fun v w => v - w) (fun x v => x *m v)
    (factorize_block biggest perturb use_perturbation accept)
    (fun p x => permute_rows p x) (fun x q => permute_cols x q) (fun p v => permute_rows p v)
    (fun lu u => solve_left_lower lu u) (fun lu l => DenseLU.solve_right_upper lu l) (fun lu v => solve_left_lower lu v) (fun lu v => solve_left_upper lu v).
Definition dense_algebra : block_algebra 'M[F]_b 'cV[F]_b 'S_b :=
  mkAlgebra (fun x y => x + y) 0 (fun x => - x) (fun v w => v + w) 0 (fun v => - v) (fun p => perm_matrix F p) (fun M => lower_of M) (fun M => upper_of M).

Hypothesis Hbig : picks_biggest biggest.
Hypothesis Haccept : forall M i, accept M i -> M i i != 0.
Theorem C23_blocks : block_laws dense_ops dense_algebra.
Proof.
  have HS x lu p q d : factorize_block biggest perturb use_perturbation accept x = Some (lu, p, q, d) -> forall i, lu i i != 0.
  { by case/(factorized Hbig Haccept). }
  have L0 m (lu : 'M[F]_b) (X Y : 'M[F]_(b, m)) : lower_of lu *m X = lower_of lu *m Y -> X = Y.
  { move=> E. have H1 : lower_of lu *m solve_left_lower lu 1%:M = 1%:M by exact: lower_solved. have [HU _] := mulmx1_unit H1.
    by rewrite -[X](mulKmx HU) E mulKmx. }
  constructor; rewrite /dense_ops /dense_algebra /=; intros.
  - exact: addrC.
  - exact: addrA.
  - exact: addr0.
  - exact: subrr.
  - by [].
  - exact: mulmxA.
  - exact: mulmxDr.
  - exact: mulmxDl.
  - exact: addrC.
  - exact: addrA.
  - exact: addr0.
  - exact: subrr.
  - by [].
  - by rewrite mulmxA.
  - exact: mulmxDr.
  - exact: mulmxDl.
  - exact: permute_rowsE.
  - exact: permute_colsE.
  - exact: permute_rowsE.
  - by rewrite -[v](mulKmx (pm_unit F p)) H mulKmx // pm_unit.
  - by have [_ [_ [-> _]]] := C23_factors Hbig Haccept H.
  - exact: lower_solved.
  - apply: (L0 _ lu). by rewrite lower_solved mulmx0.
  - apply: right_upper_solved. exact: HS H.
  - have Hd := HS _ _ _ _ _ H. have H1 : upper_of lu *m solve_left_upper lu 1%:M = 1%:M by exact: upper_solved. have [HU _] := mulmx1_unit H1.
    by rewrite -[LHS](mulmxK HU) right_upper_solved // mul0mx.
  - exact: lower_solved.
  - apply: upper_solved. exact: HS H.
Qed.

(** a block system that is factored without perturbation is solved exactly *)
Theorem C22_dense n pt (E : Type) (be : list 'cV[F]_b -> list 'cV[F]_b -> E) small (data : list 'M[F]_b) perm0 (A : nat -> nat -> 'M[F]_b) rhs x0 s x :
  pattern_ok n pt -> is_matrix pt 0 data A -> length perm0 = n -> length rhs = n -> length x0 = n ->
  prefactorize_and_solve dense_ops pt (fun v w => v + w) 0 be small data perm0 rhs x0 = Done (s, x) -> lu_perturbed s = false ->
  forall i, lt i n -> \sum_(j < n) A i j *m List.nth j x 0 = List.nth i rhs 0.
Proof.
  move=> Hok HA Hp Hr Hx HE Hb i Hi. move: (@C22_solves _ _ _ dense_ops dense_algebra C23_blocks n pt Hok E be small data perm0 A rhs x0 HA Hp Hr Hx). rewrite HE => [[_ H]]. rewrite -(H Hb i Hi) /=.
  have Hs (f : nat -> 'cV[F]_b) k : \sum_(j < k) f j = sum_n (fun v w => v + w) 0 k f.
  { elim: k => [|k IH] /=; first by rewrite big_ord0. by rewrite big_ord_recr IH. }
  exact: (Hs (fun j => A i j *m List.nth j x 0)).
Qed.
End Blocks.
Print Assumptions C23_blocks.
Print Assumptions C22_dense.
