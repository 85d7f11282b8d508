(** The hypotheses of C56 hold of the algebraic numbers and of a small grid. *)
From Verif Require Import Common Numbers NumbersComplex ShortCircuit LinearSE LinearSESpec LinearSEFacts LinearSEProps.
From mathcomp Require Import all_ssreflect all_algebra all_field.
Import Order.TTheory GRing.Theory Num.Theory.
Local Open Scope ring_scope.

Definition se_conj (x : algC) : algC := (x^*)%C.
Definition se_cabs (x : algC) : algC := `|x|%R.
Definition se_pos (x : algC) : bool := (0 < x)%R.
Definition se_nonneg (x : algC) : Prop := (0 <= x)%R.
Lemma alg_se_laws : se_laws alg_num se_conj se_cabs se_pos se_nonneg.
Proof.
  rewrite /se_conj /se_cabs /se_pos /se_nonneg. constructor => /=.
  - exact: alg_num_laws.
  - move=> x y. exact: rmorphD.
  - move=> x y. exact: rmorphM.
  - move=> x. exact: conjCK.
  - move=> x. by rewrite -expr2 normCK.
  - move=> x. by rewrite conj_Creal ?normr_real.
  - move=> x H E. by rewrite E ltxx in H.
  - move=> x H. by rewrite conj_Creal ?ger0_real.
  - move=> x. exact: mul_conjC_ge0.
  - move=> x y. exact: addr_ge0.
  - move=> x y. exact: mulr_ge0.
  - move=> x H1 H2. apply/eqP. by rewrite eq_le H1 -oppr_ge0 H2.
  - move=> x. case: (eqVneq x 0%R) => [->|H]; [by left|right]. by apply/eqP.
Qed.
Local Close Scope ring_scope.
(** Both voltages are estimated as 1, half way between the measured 2 and 0. *)
Example C56_two_buses :
  LinearSESpec.least_squares alg_num se_conj se_nonneg id (phase_shift alg_num se_cabs se_pos) 1 2 1 ls_branch_bus (fun _ => nil) (ls_param alg_num) (fun _ _ _ => 0%R) (ls_ybus alg_num)
    (ls_voltage alg_num) (fun _ _ => None) (ls_current alg_num) (fun _ => None) (ls_injection alg_num) (ls_u alg_num) (ls_u alg_num).
Proof.
  destruct (@C56_least_squares _ alg_num se_conj se_cabs se_pos se_nonneg alg_se_laws id 1 2 1 ls_branch_bus (fun _ => nil) (ls_param alg_num) (fun _ _ _ => 0%R) (ls_ybus alg_num)
    (ls_voltage alg_num) (fun _ _ => None) (ls_current alg_num) (fun _ => None) (ls_injection alg_num) true 0 ls_branches (ls_measurements alg_num se_conj se_cabs se_pos se_nonneg alg_se_laws)
    (ls_u alg_num) (iterate alg_num se_cabs true 0 (ls_u alg_num))) as (x & Hx & E).
  - exists (ls_u alg_num), (ls_phi alg_num). split; [|reflexivity]. exact: (ls_solution alg_num se_conj se_cabs se_pos se_nonneg alg_se_laws id).
  - exact: (solution_least_squares alg_num se_conj se_cabs se_pos se_nonneg alg_se_laws 1 id 2 1 ls_branch_bus (fun _ => nil) (ls_param alg_num) (fun _ _ _ => 0%R) (ls_ybus alg_num)
      (ls_voltage alg_num) (fun _ _ => None) (ls_current alg_num) (fun _ => None) (ls_injection alg_num) (ok_bus _ _ ls_branches) (ok_ends _ _ ls_branches)
      (ls_measurements alg_num se_conj se_cabs se_pos se_nonneg alg_se_laws) _ _ _ (ls_solution alg_num se_conj se_cabs se_pos se_nonneg alg_se_laws id)).
Qed.
Print Assumptions C56_least_squares. Print Assumptions C56_unique. Print Assumptions C56_exact. Print Assumptions C56_two_buses.
