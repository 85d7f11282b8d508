(** The example of C66 in the algebraic complex numbers. *)
From mathcomp Require Import all_ssreflect all_algebra all_field.
From Verif Require Import TwoPort TwoPortSpec TwoPortComplex Numbers NumbersComplex ShortCircuit LinearSE LinearSESpec LinearSEExamples PowerFlow BalancedSpec BalancedGrid BalancedProps BalancedComplex BalancedSE BalancedSEProps.
Import GRing.Theory Num.Theory.

Lemma alg_se_laws' : se_laws (num_of alg_ops) (c_conj alg_ops) (c_abs alg_ops) se_pos se_nonneg.
Proof. exact alg_se_laws. Qed.
Theorem C66_algebraic : 
  observable alg_ops se_pos id ex_topo (ex_p3 alg_ops) 1 se_ends se_shunts (se_voltage3 alg_ops) (se_power alg_ops) se_no_current se_no_shunt (se_injection alg_ops).
Proof. exact (proj1 (proj2 (proj2 (proj2 (proj2 (proj2 (C66_example alg_ops alg_laws alg_rots se_pos se_nonneg id alg_se_laws' alg_abs_rot))))))). Qed.
Print Assumptions C66_algebraic.
