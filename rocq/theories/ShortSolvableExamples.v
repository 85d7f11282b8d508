(** C65: grids that meet the conditions, and what happens without them. *)
From Coq Require Import Reals ZArith Lra Lia Bool.
From Verif Require Import Common NatMap GroupedIdx Numbers ShortCircuit ShortCircuitSpec PowerFlow PowerFlowSpec BalancedSpec BalancedGrid YBus YBusSpec Component Units UnitsFacts Ratings RatingsFacts LossesSpec LossesFacts LossesMore SolvableSpec SolvableFacts SolvableProps SolvableMore SolvableExamples ShortSolvableSpec ShortSolvableFacts ShortSolvableProps ShortSolvableOrder.
From Verif Require Import TwoPort TwoPortSpec.
Local Open Scope R_scope.

(** The source, line, transformer and shunt of C64, with a bolted three-phase fault at the end and one with a resistance at bus 1. *)
Definition two_faults (b : nat) : list nat := match b with 1%nat => [0%nat] | 2%nat => [1%nat] | _ => [] end.
Definition two_admittances (y : C) (f : nat) : admittance (C := C) := match f with 0%nat => Through y | _ => Bolted end.
Example feeder_fault_symmetric : forall y1 u_source y, 0 < re y1 -> 0 <= re y ->
  one_outcome cnum 1 3 (matrix1 complex_ops feeder feeder1) (sources_at 0) (source_y cnum 1 (fun _ => y1) (fun _ => y1)) u_source two_faults (two_admittances y) three_phase 0 1.
Proof.
  intros y1 us y Hy Hf. destruct feeder1_meets as (HB & HS & HC).
  apply (C65_symmetric feeder feeder1 (sources_at 0) (fun _ => y1) (fun _ => y1) us two_faults (two_admittances y) 0 1 feeder_ok HB HS (fun _ _ _ => Hy) HC).
  - intros b f. destruct b as [|[|[|b]]]; cbn; [intros []|intros [<-|[]]; exact Hf|intros [<-|[]]; exact I|intros []].
  - intros b Hb. destruct b as [|[|[|b]]]; cbn; lia.
Qed.
(** Three phases: every type of fault, bolted, at the end behind the transformer. *)
Definition end_fault (b : nat) : list nat := match b with 2%nat => [0%nat] | _ => [] end.
Example feeder_fault_asymmetric : exists line3 transformer3, calc_param_asym complex_ops true true true the_line = Some line3 /\ calc_param_asym complex_ops true true true the_transformer = Some transformer3 /\
  let p := mkParam [param3 line3; param3 transformer3] [shunt_tensor complex_ops (1, 4) (2, 1)] [] : @model_param (nat -> nat -> C) Datatypes.unit in
  forall y1 y0 u_source ft, 0 < re y1 -> 0 < re y0 ->
  one_outcome cnum 3 3 (matrix3 complex_ops feeder p) (sources_at 0) (source_y cnum 3 (fun _ => y1) (fun _ => y0)) u_source end_fault (fun _ => Bolted) ft 1 2.
Proof.
  destruct the_transformer_losses as [D P].
  assert (L : exists l3, calc_param_asym complex_ops true true true the_line = Some l3) by (eexists; reflexivity). destruct L as (l3 & El).
  assert (T : exists t3, calc_param_asym complex_ops true true true the_transformer = Some t3) by (eexists; reflexivity). destruct T as (t3 & Et).
  exists l3, t3. split; [exact El|]. split; [exact Et|]. intros p y1 y0 us ft H1 H0.
  pose proof (proj2 (proj2 the_line_connects l3 El)) as CL. pose proof (proj1 (proj2 (C64_transformer _ D P) t3 Et) eq_refl eq_refl) as CT.
  pose proof (proj2 (the_line_passive true true true) l3 El) as PL. pose proof (proj2 (the_transformer_passive true true true) t3 Et) as PT.
  assert (S0 : supplied cnum 3 a_tensor (combine (mt_branch feeder) (p_branch p)) (fun b => sources_at 0 b <> []) 0%nat) by (apply at_source; discriminate).
  assert (S1 : supplied cnum 3 a_tensor (combine (mt_branch feeder) (p_branch p)) (fun b => sources_at 0 b <> []) 1%nat).
  { eapply (to_side _ _ _ _ _ 0%nat 1%nat); [left; reflexivity|exact S0|exact CL]. }
  assert (HB : forall q, In q (p_branch p) -> exists b, passive3 b /\ q = param3 b) by (intros q [<-|[<-|[]]]; [exists l3|exists t3]; split; auto).
  assert (HS : forall g, In g (p_shunt p) -> exists g1 g0, 0 <= re g1 /\ 0 <= re g0 /\ g = shunt_tensor complex_ops g1 g0).
  { intros g [<-|[]]. exists (1, 4), (2, 1). unfold re; cbn [fst]. split; [lra|]. split; [lra|reflexivity]. }
  assert (HC : forall b, (b < mt_n_bus feeder)%nat -> supplied cnum 3 a_tensor (combine (mt_branch feeder) (p_branch p)) (fun b => sources_at 0 b <> []) b).
  { intros b Hb. destruct b as [|[|[|b]]]; [exact S0|exact S1| |cbn in Hb; lia]. eapply (to_side _ _ _ _ _ 1%nat 2%nat); [right; left; reflexivity|exact S1|exact CT]. }
  assert (PF : phases_fit 3 ft 1 2) by (destruct ft; cbn; lia).
  assert (F1 : forall b, (b < mt_n_bus feeder)%nat -> (length (filter (fun f => is_bolted ((fun _ : nat => @Bolted C) f)) (end_fault b)) <= 1)%nat) by (intros b Hb; destruct b as [|[|[|b]]]; cbn in *; lia).
  assert (F2 : forall b, (b < mt_n_bus feeder)%nat -> ft = two_phase_to_ground -> (exists f, In f (end_fault b) /\ (fun _ : nat => @Bolted C) f = Bolted) \/ (length (end_fault b) <= 1)%nat) by (intros b Hb _; right; destruct b as [|[|[|b]]]; cbn in *; lia).
  exact (C65_asymmetric feeder p (sources_at 0) (fun _ => y1) (fun _ => y0) us end_fault (fun _ => Bolted) ft 1 2 feeder_ok HB HS (fun _ _ _ => Logic.conj H1 H0) HC PF (fun _ _ _ => I) F1 F2).
Qed.

(** ** Without the conditions *)
(** A fault with a negative resistance, as the input allows: no solution. *)
Lemma faulted_equation y1 us y x : solves cnum 1 1 (prepare cnum 1 (matrix1 complex_ops one_bus (mkParam [] [(0, 0)] [] : @model_param C Datatypes.unit)) (sources_at 0) (source_y cnum 1 (fun _ => y1) (fun _ => y1)) (fun _ _ => us) (sources_at 0) (fun _ => y) three_phase 0 1 1) x ->
  match y with Through y => cmul (cadd y1 y) (x 0%nat 0%nat) = cmul y1 us | Bolted => True end.
Proof.
  intros H. destruct y as [|y]; [exact I|]. assert (Q := H 0%nat 0%nat ltac:(lia) ltac:(lia)). clear H. cbn in Q. revert Q. generalize (x 0%nat 0%nat). intros w. destruct y1, us, y, w. unfold cmul, cadd, csub, conj, re, im. cbn. intros [= A B]. f_equal; lra.
Qed.
Theorem C65_negative_resistance_refuted : exists y1 y : C, 0 < re y1 /\ re y < 0 /\
  forall x, ~ solves cnum 1 1 (prepare cnum 1 (matrix1 complex_ops one_bus (mkParam [] [(0, 0)] [] : @model_param C Datatypes.unit)) (sources_at 0) (source_y cnum 1 (fun _ => y1) (fun _ => y1)) (fun _ _ => (1, 0)) (sources_at 0) (fun _ => Through y) three_phase 0 1 1) x.
Proof.
  exists (1, 0), (-1, 0). unfold re; cbn [fst]. split; [lra|]. split; [lra|]. intros x H. apply faulted_equation in H. revert H. generalize (x 0%nat 0%nat). intros [a b]. unfold cmul, cadd, csub, conj, re, im. cbn. intros [= A B]. lra.
Qed.

Print Assumptions C65_symmetric.
Print Assumptions C65_asymmetric.
Print Assumptions C65_order_symmetric.
Print Assumptions C65_order_asymmetric.
Print Assumptions C65_balanced.
Print Assumptions C65_source.
Print Assumptions C65_fault.
Print Assumptions C65_negative_resistance_refuted.
