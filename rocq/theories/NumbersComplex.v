(** The algebraic numbers as numbers ([Numbers.v]), with the third roots of unity that balanced phase voltages need. *)
From Coq Require Import ZArith.
From Verif Require Import Common Numbers TwoPort TwoPortSpec TwoPortComplex.
From mathcomp Require Import all_ssreflect all_algebra all_field.
Set Implicit Arguments. Unset Strict Implicit. Unset Printing Implicit Defensive.
Import GRing.Theory Num.Theory.
Local Open Scope ring_scope.

Definition alg_num : num_ops algC := mkNum 0 1 +%R *%R (fun a b => a - b) -%R (fun a b => a / b) (fun a => a^-1).
Lemma alg_num_laws : num_laws alg_num. Proof. constructor. exact alg_field. Qed.
Lemma alg_nnum n : nnum alg_num n = n%:R.
Proof. rewrite /nnum /nsum. elim: n => [//|n IH]. by rewrite /= IH -[n.+1]addn1 natrD addrC. Qed.
Lemma alg_nnum_nz n : n <> 0%N -> nnum alg_num n <> n_zero alg_num.
Proof. move=> H. rewrite alg_nnum. apply/eqP. rewrite pnatr_eq0. by apply/eqP. Qed.
(** exp(2 pi i / 3) *)
Definition alg_a : algC := alg_rot 4.
Lemma alg_a_sum : n_add alg_num (n_add alg_num (n_one alg_num) alg_a) (n_mul alg_num alg_a alg_a) = n_zero alg_num.
Proof. rewrite /= -alg_rot_add. exact: (rl_three _ alg_rots). Qed.
