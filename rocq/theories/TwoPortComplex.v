(** The algebraic numbers (the field of all complex roots of rational polynomials, with conjugation and modulus) satisfy the laws that C26 is proved from. *)
From Coq Require Import ZArith Field Lia.
From Verif Require Import TwoPort TwoPortSpec.
Lemma mod12_add m n : Z.to_nat ((m + n) mod 12) = Z.to_nat (m mod 12) + Z.to_nat (n mod 12) \/ Z.to_nat (m mod 12) + Z.to_nat (n mod 12) = Z.to_nat ((m + n) mod 12) + 12.
Proof.
  pose proof (Z.mod_pos_bound m 12 ltac:(lia)) as Hm. pose proof (Z.mod_pos_bound n 12 ltac:(lia)) as Hn.
  rewrite Z.add_mod by lia. set (x := (m mod 12)%Z) in *. set (y := (n mod 12)%Z) in *.
  assert (H : (x + y < 12 \/ 12 <= x + y)%Z) by lia. destruct H as [H|H].
  - left. rewrite Z.mod_small by lia. lia.
  - right. assert (E : ((x + y) mod 12 = x + y - 12)%Z) by (symmetry; apply Z.mod_unique with 1%Z; lia). rewrite E. lia.
Qed.
From mathcomp Require Import all_ssreflect all_algebra all_field.
Set Implicit Arguments. Unset Strict Implicit. Unset Printing Implicit Defensive.
Import GRing.Theory Num.Theory.
Local Open Scope ring_scope.

Definition unit12 : algC := sval (C_prim_root_exists (isT : (0 < 12)%N)).
Lemma unit12_prim : 12.-primitive_root unit12. Proof. exact: svalP (C_prim_root_exists (isT : (0 < 12)%N)). Qed.
Definition alg_rot (n : Z) : algC := unit12 ^+ Z.to_nat (Z.modulo n 12).
Definition alg_ops : cx_ops algC := mkCx 0 1 +%R (fun a b => a - b) *%R (fun a b => a / b) -%R (fun a => a^-1) (fun a => a^*)%C
  (fun a => `|a|) (fun a => `|a| < (10%:R ^+ 8)^-1) (fun a => a == 0) alg_rot.

Lemma alg_field : field_theory (0 : algC) 1 +%R *%R (fun a b => a - b) -%R (fun a b => a / b) (fun a => a^-1) eq.
Proof.
  constructor => //.
  - constructor.
    + exact: add0r.
    + exact: addrC.
    + exact: addrA.
    + exact: mul1r.
    + exact: mulrC.
    + exact: mulrA.
    + exact: mulrDl.
    + by [].
    + exact: subrr.
  - by move=> E; move: (oner_neq0 [ringType of algC]); rewrite E eqxx.
  - by move=> p Hp; rewrite mulVf //; apply/eqP.
Qed.
Lemma alg_laws : cx_laws alg_ops.
Proof.
  constructor.
  - exact alg_field.
  - by move=> a b /=; rewrite rmorphD.
  - by move=> a b /=; rewrite rmorphM.
  - by move=> a /=; rewrite conjCK.
  - change ((2%:R : algC) <> 0). by apply/eqP; rewrite pnatr_eq0.
  - change ((1 + 1 + 1 : algC) <> 0). rewrite -addrA. change ((3%:R : algC) <> 0). by apply/eqP; rewrite pnatr_eq0.
  - by rewrite /= normr0 invr_gt0 exprn_gt0 // ltr0n.
  - by move=> y; split => /= [/eqP|/eqP].
Qed.
Lemma u12 n : unit12 ^+ (n + 12)%N = unit12 ^+ n. Proof. by rewrite exprD (prim_expr_order unit12_prim) mulr1. Qed.
Lemma alg_rot_add m n : alg_rot (Z.add m n) = alg_rot m * alg_rot n.
Proof.
  rewrite /alg_rot -exprD. case: (mod12_add m n) => [-> //|E].
  rewrite -u12. by congr (_ ^+ _).
Qed.
Lemma norm_u12 : `|unit12| = 1.
Proof. apply/eqP. rewrite -(@pexpr_eq1 _ _ 12) //. by rewrite -normrX (prim_expr_order unit12_prim) normr1. Qed.
Lemma conj_u12 k : (unit12 ^+ k)^*%C * unit12 ^+ k = 1.
Proof. by rewrite mulrC -normCK normrX norm_u12 !expr1n. Qed.
Lemma alg_rots : rot_laws alg_ops.
Proof.
  constructor.
  - by rewrite /= /alg_rot /= expr0.
  - exact alg_rot_add.
  - change (unit12 ^+ 6 = -1).
    have H : unit12 ^+ 6 != 1 by rewrite -(prim_order_dvd unit12_prim).
    have X : (unit12 ^+ 6) ^+ 2 == 1 by rewrite -exprM (prim_expr_order unit12_prim).
    move: X. by rewrite sqrf_eq1 (negbTE H) /= => /eqP.
  - by rewrite /= /alg_rot /= expr0.
  - move=> n /=. have E : alg_rot (Z.opp n) * alg_rot n = 1 by rewrite -alg_rot_add Z.add_opp_diag_l /alg_rot /= expr0.
    have F : (alg_rot n)^*%C * alg_rot n = 1 by exact: conj_u12.
    have G : alg_rot n != 0 by apply/eqP => H; move: E; rewrite H mulr0 => X; move: (oner_neq0 [ringType of algC]); rewrite -X eqxx.
    by apply: (mulIf G); rewrite F E.
  - change (1 + unit12 ^+ 4 + unit12 ^+ 8 = 0).
    have H : unit12 ^+ 4 != 1.
    { by rewrite -(prim_order_dvd unit12_prim). }
    have X : (unit12 ^+ 4 - 1) * (1 + unit12 ^+ 4 + unit12 ^+ 8) = 0.
    { rewrite mulrBl mul1r. apply/eqP. rewrite subr_eq0 !mulrDr mulr1 -!exprD. change (4 + 4)%N with 8%N. change (4 + 8)%N with 12%N.
      by rewrite (prim_expr_order unit12_prim) addrC addrA. }
    move/eqP: X. rewrite mulf_eq0 subr_eq0 (negbTE H) /=. by move/eqP.
Qed.
Lemma alg_ratio (n : algC) : n <> 0 -> ratio_ok alg_ops n.
Proof. move=> H; split => //=. by rewrite -normCK expr2. Qed.
Definition algebraic : Type := algC.
Lemma alg_not_small n : (0 < n)%N -> c_small alg_ops (n%:R) = false.
Proof.
  move=> Hn. rewrite /=. apply/negbTE. rewrite -real_leNgt; [|by rewrite rpredV rpredX // realn|by rewrite normr_real].
  rewrite normr_nat. apply: (@Order.POrderTheory.le_trans _ _ 1); last by rewrite ler1n.
  by rewrite invf_le1 ?exprn_gt0 ?ltr0n // exprn_ege1 // ler1n.
Qed.
Lemma alg_two_not_small : c_small alg_ops (1 + 1) = false. Proof. exact: (@alg_not_small 2). Qed.
Lemma alg_one_not_small : c_small alg_ops 1 = false. Proof. exact: (@alg_not_small 1). Qed.
Lemma alg_four_not_small : c_small alg_ops ((1 + 1) * (1 + 1)) = false.
Proof. have E : (1 + 1) * (1 + 1) = 4%:R :> algC by rewrite -[1 + 1]/(2%:R) -natrM. by rewrite /= E; exact: (@alg_not_small 4). Qed.
Lemma alg_rot_nz n : alg_rot n <> 0.
Proof. rewrite /alg_rot => /eqP. by rewrite expf_eq0 -normr_eq0 norm_u12 oner_eq0 andbF. Qed.
Lemma alg_nat_nz n : (0 < n)%N -> (n%:R : algC) <> 0. Proof. move=> Hn /eqP. by rewrite pnatr_eq0 => /eqP E; rewrite E in Hn. Qed.
