(** C61 holds of the algebraic complex numbers. *)
From mathcomp Require Import all_ssreflect all_algebra all_field.
From Verif Require Import TwoPort TwoPortSpec TwoPortComplex Numbers ShortCircuit PowerFlow PowerFlowSpec YBus BalancedSpec BalancedGrid BalancedProps.
Import GRing.Theory Num.Theory.
Local Open Scope ring_scope.
Lemma alg_abs_square x : n_mul (num_of alg_ops) (c_abs alg_ops x) (c_abs alg_ops x) = n_mul (num_of alg_ops) x (c_conj alg_ops x).
Proof. by rewrite /= -expr2 normCK. Qed.
Lemma alg_abs_rot x : c_abs alg_ops (n_mul (num_of alg_ops) x (a120 alg_ops)) = c_abs alg_ops x.
Proof. by rewrite /= normrM /a120 /= /alg_rot normrX norm_u12 expr1n mulr1. Qed.
Theorem C61_algebraic :
  grid_params alg_ops (ex_line alg_ops :: nil) ((c_1 alg_ops, c_1 alg_ops) :: nil) (ex_p1 alg_ops) (ex_p3 alg_ops) /\
  solves (num_of alg_ops) 1 2 (prepare_linear (num_of alg_ops) (c_conj alg_ops) (a120 alg_ops) 1 2 (matrix1 alg_ops ex_topo (ex_p1 alg_ops)) ex_sources ex_loads (ex_two alg_ops) (ex_two alg_ops) (ex_one alg_ops) (fun l _ => ex_s alg_ops l)) (ex_u alg_ops) /\
  at_most_one alg_ops ex_topo 3 (e_mat (prepare_linear (num_of alg_ops) (c_conj alg_ops) (a120 alg_ops) 3 2 (matrix3 alg_ops ex_topo (ex_p3 alg_ops)) ex_sources ex_loads (ex_two alg_ops) (ex_two alg_ops) (ex_one alg_ops) (fun l _ => ex_s alg_ops l))).
Proof. exact (C61_example alg_ops alg_laws alg_rots alg_abs_square alg_abs_rot). Qed.
Print Assumptions C61_algebraic.
