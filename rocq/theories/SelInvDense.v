(** C60 with the dense blocks of C23: every block size, every field. *)
From mathcomp Require Import all_ssreflect all_fingroup all_algebra.
From Verif Require Import SparseLU SparseLUSpec SparseLUProps SelInv SelInvSpec SelInvProps DenseLU DenseLUSpec DenseLUProps DenseLUBlocks.
Set Implicit Arguments. Unset Strict Implicit. Unset Printing Implicit Defensive.
Import GRing.Theory. Local Open Scope ring_scope.

Section Blocks.
Variables (F : fieldType) (b : nat) (biggest : 'I_b -> 'M[F]_b -> 'I_b * 'I_b) (perturb : F -> option F) (use_perturbation : bool) (accept : 'M[F]_b -> 'I_b -> bool).
(** sparse_lu_solver.hpp 206-214, 750-767 *)
Definition dense_inv_ops : inv_ops 'M[F]_b :=
  mkInvOps 0 (fun x y => x + y) (fun x => - x) (fun lu u => solve_left_upper lu u) (fun lu l => solve_right_lower lu l) (fun lu => inverse_factorized_block lu).
Hypothesis Hbig : picks_biggest biggest.
Hypothesis Haccept : forall M i, accept M i -> M i i != 0.
Notation ops := (dense_ops biggest perturb use_perturbation accept).
Theorem C60_blocks : inv_laws ops (dense_algebra F b) dense_inv_ops 1%:M.
Proof.
  have HS x lu p q d : factorize_block biggest perturb use_perturbation accept x = Some (lu, p, q, d) -> forall i, lu i i != 0.
  { by case/(factorized Hbig Haccept). }
  have HI (x y : 'M[F]_b) : x *m y = 1%:M -> exists z, z *m x = 1%:M /\ x *m z = 1%:M.
  { move=> E. exists y. split=> //. exact: mulmx1C. }
  constructor; rewrite /dense_inv_ops /dense_ops /dense_algebra /=; intros => //.
  - exact: mul1mx.
  - exact: mulmx1.
  - apply: HI. exact: mulmxV (pm_unit F p).
  - apply: HI. exact: (lower_solved lu 1%:M).
  - apply: HI. exact: (upper_solved 1%:M (HS _ _ _ _ _ H)).
  - exact: (upper_solved u (HS _ _ _ _ _ H)).
  - exact: right_lower_solved.
  - rewrite /inverse_factorized_block -mulmxA (upper_solved _ (HS _ _ _ _ _ H)). exact: lower_solved.
Qed.

(** a block matrix factored without perturbation: the blocks stored are those of its inverse *)
Theorem C60_dense n pt (data : list 'M[F]_b) perm0 (A : nat -> nat -> 'M[F]_b) s :
  pattern_ok n pt -> is_matrix pt 0 data A -> length perm0 = n -> prefactorize ops pt data perm0 = Done s -> lu_perturbed s = false ->
  exists data' (B : nat -> nat -> 'M[F]_b), selective_inverse ops pt dense_inv_ops s = Done data' /\
    (forall i j : 'I_n, \sum_(k < n) A i k *m B k j = (i == j)%:R%:M /\ \sum_(k < n) B i k *m A k j = (i == j)%:R%:M) /\ holds_blocks pt data' B.
Proof.
  move=> Hok HA Hp HE Hb. have [_ H] := @C60_selective_inverse _ _ _ _ _ (C23_blocks perturb use_perturbation Hbig Haccept) _ _ C60_blocks n pt Hok data perm0 A s HA Hp HE.
  have [d [B [E [HI HB]]]] := H Hb. exists d, B. split=> //. split=> // i j.
  have Hs (f : nat -> 'M[F]_b) k : \sum_(j < k) f j = sum_n (fun x y => x + y) 0 k f.
  { elim: k => [|k IH] /=; first by rewrite big_ord0. by rewrite big_ord_recr IH. }
  have Hlt (k : 'I_n) : lt k n by apply/ltP.
  have [H1 H2] := HI i j (Hlt i) (Hlt j). have HD : (if Nat.eqb i j then 1%:M else 0) = (i == j)%:R%:M :> 'M[F]_b.
  { case: eqP => [->|Hn]; first by rewrite PeanoNat.Nat.eqb_refl. case: (PeanoNat.Nat.eqb_spec i j) => [Hv|_]; last by rewrite raddf0. by case: Hn; apply: val_inj. }
  rewrite (Hs (fun k => A i k *m B k j)) (Hs (fun k => B i k *m A k j)). by split; rewrite -HD.
Qed.
End Blocks.
Print Assumptions C60_blocks. Print Assumptions C60_dense.
