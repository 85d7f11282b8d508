(** The algebraic numbers satisfy the laws of the power flow theorems, and an asymmetric calculation with two sources at one bus and a load at another satisfies their hypotheses. *)
From Coq Require Import ZArith Field Lia.
From Verif Require Import Common Numbers NumbersComplex TwoPort TwoPortSpec TwoPortComplex ShortCircuit PowerFlow PowerFlowSpec PowerFlowFacts PowerFlowProps.
From mathcomp Require Import all_ssreflect all_algebra all_field.
Set Implicit Arguments. Unset Strict Implicit. Unset Printing Implicit Defensive.
Import GRing.Theory Num.Theory.
Local Open Scope ring_scope.

Definition alg_conj (x : algC) : algC := (x^*)%C.
Definition alg_abs (x : algC) : algC := `|x|.
Lemma alg_pf_laws : pf_laws alg_num alg_conj alg_abs alg_a.
Proof.
  constructor.
  - exact: alg_num_laws.
  - by move=> x y; rewrite /alg_conj /= rmorphD.
  - by move=> x y; rewrite /alg_conj /= rmorphM.
  - by move=> x; rewrite /alg_conj conjCK.
  - by move=> x; rewrite /alg_conj /alg_abs /= -normCK expr2.
  - change ((1 + 1 + 1 : algC) <> 0). rewrite -addrA. change ((3%:R : algC) <> 0). by apply/eqP; rewrite pnatr_eq0.
  - exact: alg_a_sum.
Qed.
Lemma alg_five : (1 + 1 + 1 + 1 + 1 : algC) <> 0.
Proof. rewrite -!addrA. change ((5%:R : algC) <> 0). by apply/eqP; rewrite pnatr_eq0. Qed.
Lemma alg_two : (1 + 1 : algC) <> 0.
Proof. change ((2%:R : algC) <> 0). by apply/eqP; rewrite pnatr_eq0. Qed.
Lemma alg_a_nz : alg_a <> 0.
Proof.
  move=> E. have H := alg_a_sum. rewrite /= E in H. move: H. rewrite !addr0 mulr0 addr0. by apply/eqP; rewrite oner_neq0.
Qed.
Local Close Scope ring_scope.
Local Notation ex_ybus := (ex_ybus alg_num). Local Notation ex_y := (ex_y alg_num). Local Notation ex_s := (ex_s alg_num). Local Notation ex_volt := (ex_volt alg_num alg_a).
Lemma ex_alg : solves alg_num 3 2 (prepare_linear alg_num alg_conj alg_a 3 2 ex_ybus ex_sources ex_loads ex_y ex_y ex_y ex_s) ex_volt.
Proof. apply: (ex_solution alg_num alg_conj alg_abs alg_a alg_pf_laws alg_five). by rewrite /alg_conj /= rmorphN rmorph1. Qed.
Lemma phasor_nz (x : algC) p : x <> 0%R -> phasor alg_num alg_a x p <> 0%R.
Proof.
  move=> /eqP Hx. have /eqP Ha := alg_a_nz. apply/eqP.
  destruct p as [|[|p]]; [exact: Hx|change ((x * (alg_a * alg_a))%R != 0%R)|change ((x * alg_a)%R != 0%R)]; repeat (first [assumption|apply: mulf_neq0]).
Qed.
Lemma ex_volt_nz b p : ex_volt b p <> 0%R.
Proof.
  apply: phasor_nz. have F5 := alg_five. have F2 := alg_two. have F4 : (1 + 1 + 1 + 1 : algC)%R <> 0%R.
  { rewrite -!addrA. change (((4%:R)%R : algC) <> 0%R). by apply/eqP; rewrite pnatr_eq0. }
  move/eqP in F5. move/eqP in F2. move/eqP in F4. destruct b as [|b]; apply/eqP; by rewrite mulf_neq0 // invr_neq0.
Qed.
Lemma ex_regular : PowerFlowFacts.regular alg_num 3 ex_sources ex_y ex_y 0.
Proof. right. have F2 := alg_two. rewrite /nsum /= /ex_y addr0. by split. Qed.
Example ex_linear : let ty := fun _ => const_y in
  kirchhoff alg_num 3 2 ex_ybus ex_volt
    (map (source_i alg_num alg_conj alg_abs alg_a 3 2 ex_ybus ex_sources ex_loads ex_y ex_y ex_y ex_s ty ex_volt 0) (ex_sources 0) ++
     map (load_gen_i alg_num alg_conj alg_abs ex_s ty ex_volt 0) (ex_loads 0)) 0 /\
  source_law alg_num alg_a 3 1%R 1%R 1%R (ex_volt 0) (source_i alg_num alg_conj alg_abs alg_a 3 2 ex_ybus ex_sources ex_loads ex_y ex_y ex_y ex_s ty ex_volt 0 1).
Proof.
  move=> ty.
  destruct (@C39_linear _ alg_num alg_conj alg_abs alg_a alg_pf_laws 3 2 ex_ybus ex_sources ex_loads ex_y ex_y ex_y ex_s (or_intror (Logic.eq_refl _)) ex_volt ex_alg 0) as (H1 & H2 & H3).
  - lia.
  - move=> _. exact: ex_regular.
  - move=> p _. exact: ex_volt_nz.
  - split; [exact: H1|]. destruct (H2 1) as [H4 _]; [by right; left|]. exact: H4.
Qed.
(** the same voltages are a fixed point of the iterative current method *)
Example ex_fixed : iteration alg_num alg_conj alg_abs alg_a 3 2 ex_ybus ex_sources ex_loads ex_y ex_y ex_y ex_s (fun _ => const_y) ex_volt ex_volt.
Proof.
  apply (@C51_linear_agrees _ alg_num alg_conj alg_abs alg_a alg_pf_laws 3 2 ex_ybus ex_sources ex_loads ex_y ex_y ex_y ex_s (fun _ => const_y) ex_volt); [by []|exact: ex_alg].
Qed.

Print Assumptions C49_balance_at_sources.
Print Assumptions C49_power.
Print Assumptions C39_linear.
Print Assumptions C39_equations.
Print Assumptions C51_iteration.
Print Assumptions C51_fixed_point.
Print Assumptions C51_linear_agrees.
Print Assumptions ex_linear.
Print Assumptions ex_fixed.
