(** C64: a grid that meets the conditions, and what happens without them. *)
From Coq Require Import Reals ZArith Lra Lia Bool Permutation.
From Verif Require Import Common NatMap GroupedIdx Numbers ShortCircuit PowerFlow PowerFlowSpec BalancedSpec BalancedGrid BalancedProps YBus YBusSpec Component Taps Units UnitsFacts Ratings RatingsSpec RatingsFacts RatingsProps LossesSpec LossesFacts LossesProps LossesMore LossesExamples SolvableSpec SolvableFacts SolvableKernel SolvableProps SolvableMore SolvableOrder.
From Verif Require Import TwoPort TwoPortSpec.
Local Open Scope R_scope.

(** ** A source, a line, a transformer Dyn11, a shunt and a load *)
Definition feeder : math_topo := mkMathTopo 3 [(Some 0, Some 1); (Some 1, Some 2)]%nat (mkDense 3 [2%nat]) [].
Lemma feeder_ok : sub_grid_ok feeder.
Proof.
  constructor; simpl.
  - intros k b H. do 2 (destruct k as [|k]; [injection H as <-; simpl; split; intros i [= <-]; lia|]). destruct k; discriminate.
  - reflexivity.
  - repeat constructor.
  - intros b [<-|[]]; lia.
  - intros i j [].
  - intros p q i j Hp. destruct p; discriminate.
  - intros i j c Hf. destruct Hf as [[]|[]].
  - left. intros i Hi. destruct i as [|[|[|i]]]; [| | |lia].
    + exists (mkElement E_bff 0). apply m_ff with (o := Some 1%nat). reflexivity.
    + exists (mkElement E_btt 0). apply m_tt with (f := Some 0%nat). reflexivity.
    + exists (mkElement E_shunt 0). apply m_shunt. reflexivity.
  - lia.
Qed.
(** the same with the buses numbered from the other end and the transformer given before the line *)
Definition turned : math_topo := mkMathTopo 3 [(Some 1, Some 0); (Some 2, Some 1)]%nat (mkDense 3 [0%nat]) [].
Definition turn (b : nat) : nat := (2 - b)%nat.
Definition the_line : branch_kind := KLine (line_series 10000 (1 / 10) (2 / 10)) (line_shunt 50 10000 (1 / 1000000) (1 / 100)) (line_series 10000 (3 / 10) (6 / 10)) (line_shunt 50 10000 (1 / 2000000) (1 / 50)).
Lemma the_line_new : line_new 50 10000 10000 some_line = Some the_line.
Proof. unfold line_new. destruct (Rlt_dec _ _) as [H|H]; [rewrite Rminus_eq_0, Rabs_R0 in H; unfold numerical_tolerance in H; lra|reflexivity]. Qed.
Lemma the_line_passive : never_generates the_line.
Proof. destruct some_line_passive as (b & E & N). rewrite the_line_new in E. apply some_eq in E. subst b. exact N. Qed.
Lemma the_line_connects : connects (calc_param_sym complex_ops true true true the_line) /\ forall p, calc_param_asym complex_ops true true true the_line = Some p -> connects3 p.
Proof.
  destruct (C64_line 50 10000 10000 some_line the_line the_line_new) as [A B]; cbn [some_line li_r1 li_c1 li_tan1 li_r0 li_c0 li_tan0] in *; try lra. split; [exact A|]. apply B; lra.
Qed.
Definition the_transformer : branch_kind := KTransformer (transformer_at (taps_new (mkTapsIn 2 (-2) 2 0)) 11 some_transformer 10000 400).
Lemma the_transformer_at : transformer_new (tr_taps some_transformer) 11 Delta WyeN = Some (taps_new (mkTapsIn 2 (-2) 2 0), 11%Z). Proof. reflexivity. Qed.
Lemma the_transformer_losses : dissipative_transformer (transformer_at (taps_new (mkTapsIn 2 (-2) 2 0)) 11 some_transformer 10000 400) /\ 0 < re (tp_y_series (transformer_at (taps_new (mkTapsIn 2 (-2) 2 0)) 11 some_transformer 10000 400)).
Proof.
  pose proof (C64_transformer_losses (taps_new (mkTapsIn 2 (-2) 2 0)) 11 some_transformer 10000 400) as H.
  assert (T : tap_voltage real_ops (taps_new (mkTapsIn 2 (-2) 2 0)) 10500 250 = 11000) by (unfold tap_voltage; cbn -[IZR]; cbn; lra).
  cbn [some_transformer tr_taps tr_tap_at_from tr_u1 tr_u2 tr_tap_size tr_pk tr_pk_min tr_pk_max tr_p0 tr_p0_zero tr_i0_zero tr_i0 tr_r_from tr_r_to tr_sn] in H. rewrite T in H.
  apply H; try lra. unfold adjust, tap_adjust_impedance. cbn -[IZR]. lra.
Qed.
Lemma the_transformer_passive : never_generates the_transformer.
Proof. destruct some_transformer_passive as (t & c & E & _ & N). rewrite the_transformer_at in E. injection E as <- <-. exact N. Qed.
Definition feeder1 : @model_param C Datatypes.unit := mkParam [param1 (calc_param_sym complex_ops true true true the_line); param1 (calc_param_sym complex_ops true true true the_transformer)] [(1, 4)] [].
Definition turned1 : @model_param C Datatypes.unit := mkParam [param1 (calc_param_sym complex_ops true true true the_transformer); param1 (calc_param_sym complex_ops true true true the_line)] [(1, 4)] [].
Definition sources_at (b : nat) (x : nat) : list nat := if Nat.eqb x b then [0%nat] else [].
Lemma feeder1_meets : (forall q, In q (p_branch feeder1) -> exists b, passive b /\ q = param1 b) /\ (forall g, In g (p_shunt feeder1) -> 0 <= re g) /\
  (forall b, (b < 3)%nat -> supplied cnum 1 one_number (combine (mt_branch feeder) (p_branch feeder1)) (fun b => sources_at 0 b <> []) b).
Proof.
  split; [|split].
  - intros q [<-|[<-|[]]]; [exists (calc_param_sym complex_ops true true true the_line)|exists (calc_param_sym complex_ops true true true the_transformer)]; (split; [|reflexivity]); [apply the_line_passive|apply the_transformer_passive].
  - intros g [<-|[]]. unfold re; cbn [fst]. lra.
  - destruct the_transformer_losses as [D P]. pose proof (proj2 (proj1 the_line_connects)) as CL. pose proof (proj2 (proj1 (C64_transformer _ D P))) as CT.
    assert (S0 : supplied cnum 1 one_number (combine (mt_branch feeder) (p_branch feeder1)) (fun b => sources_at 0 b <> []) 0%nat) by (apply at_source; discriminate).
    assert (S1 : supplied cnum 1 one_number (combine (mt_branch feeder) (p_branch feeder1)) (fun b => sources_at 0 b <> []) 1%nat).
    { eapply (to_side _ _ _ _ _ 0%nat 1%nat); [left; reflexivity|exact S0|]. apply resistive1. exact CL. }
    intros b Hb. destruct b as [|[|[|b]]]; [exact S0|exact S1| |lia]. eapply (to_side _ _ _ _ _ 1%nat 2%nat); [right; left; reflexivity|exact S1|]. apply resistive1. exact CT.
Qed.
Lemma feeder_turned : same_grid turn feeder turned feeder1 turned1.
Proof.
  split; [reflexivity|]. split; [|split; [|split]].
  - intros; cbn [mt_n_bus feeder] in *; unfold turn in *; lia.
  - intros; cbn [mt_n_bus feeder] in *; unfold turn in *; lia.
  - apply perm_swap.
  - apply Permutation_refl.
Qed.
(** The hypotheses of C64_symmetric and of C64_order_symmetric hold: a unique solution, the same in both orders. *)
Example feeder_symmetric : forall y1 u_ref s, 0 < re y1 -> re s <= 0 ->
  let e := prepare_linear cnum conj (a120 complex_ops) 1 3 (matrix1 complex_ops feeder feeder1) (sources_at 0) (sources_at 2) (fun _ => y1) (fun _ => y1) (fun _ => u_ref) (fun _ _ => s) in
  let e' := prepare_linear cnum conj (a120 complex_ops) 1 3 (matrix1 complex_ops turned turned1) (sources_at 2) (sources_at 0) (fun _ => y1) (fun _ => y1) (fun _ => u_ref) (fun _ _ => s) in
  exists u, solves cnum 1 3 e u /\ (forall v, solves cnum 1 3 e v -> forall b, (b < 3)%nat -> v b 0%nat = u b 0%nat) /\
  (forall v, solves cnum 1 3 e' v -> forall b, (b < 3)%nat -> v (2 - b)%nat 0%nat = u b 0%nat).
Proof.
  intros y1 u_ref s Hy Hs e e'. destruct feeder1_meets as (HB & HS & HC).
  destruct (proj1 (C64_symmetric feeder feeder1 (sources_at 0) (sources_at 2) (fun _ => y1) (fun _ => y1) (fun _ => u_ref) (fun _ _ => s) feeder_ok HB HS (fun _ _ _ => Hy) HC) (fun _ _ _ => Hs)) as (u & Hu & U).
  exists u. split; [exact Hu|]. split; [exact U|]. intros v Hv.
  apply (C64_order_symmetric turn feeder turned feeder1 turned1 (sources_at 0) (sources_at 2) (sources_at 2) (sources_at 0) (fun _ => y1) (fun _ => y1) (fun _ => u_ref) (fun _ _ => s) feeder_ok HB HS (fun _ _ _ => Hy) (fun _ _ _ => Hs) HC feeder_turned); auto;
    intros b Hb; destruct b as [|[|[|b]]]; try apply Permutation_refl; cbn in Hb; lia.
Qed.
(** three phases: the line and the transformer, whose delta is towards the source *)
Example feeder_asymmetric : exists line3 transformer3, calc_param_asym complex_ops true true true the_line = Some line3 /\ calc_param_asym complex_ops true true true the_transformer = Some transformer3 /\
  let p := mkParam [param3 line3; param3 transformer3] [shunt_tensor complex_ops (1, 4) (2, 1)] [] : @model_param (nat -> nat -> C) Datatypes.unit in
  forall y1 y0 u_ref s, 0 < re y1 -> 0 < re y0 -> (forall ph : nat, (ph < 3)%nat -> re (s ph) <= 0) ->
  let e := prepare_linear cnum conj (a120 complex_ops) 3 3 (matrix3 complex_ops feeder p) (sources_at 0) (sources_at 2) (fun _ => y1) (fun _ => y0) (fun _ => u_ref) (fun _ => s) in
  exists u, solves cnum 3 3 e u /\ forall v, solves cnum 3 3 e v -> forall b ph, (b < 3)%nat -> (ph < 3)%nat -> v b ph = u b ph.
Proof.
  destruct the_transformer_losses as [D P].
  assert (L : exists l3, calc_param_asym complex_ops true true true the_line = Some l3) by (eexists; reflexivity). destruct L as (l3 & El).
  assert (T : exists t3, calc_param_asym complex_ops true true true the_transformer = Some t3) by (eexists; reflexivity). destruct T as (t3 & Et).
  exists l3, t3. split; [exact El|]. split; [exact Et|]. intros p y1 y0 u_ref s H1 H0 Hs e.
  pose proof (proj2 (proj2 the_line_connects l3 El)) as CL. pose proof (proj1 (proj2 (C64_transformer _ D P) t3 Et) eq_refl eq_refl) as CT.
  pose proof (proj2 (the_line_passive true true true) l3 El) as PL. pose proof (proj2 (the_transformer_passive true true true) t3 Et) as PT.
  assert (S0 : supplied cnum 3 a_tensor (combine (mt_branch feeder) (p_branch p)) (fun b => sources_at 0 b <> []) 0%nat) by (apply at_source; discriminate).
  assert (S1 : supplied cnum 3 a_tensor (combine (mt_branch feeder) (p_branch p)) (fun b => sources_at 0 b <> []) 1%nat).
  { eapply (to_side _ _ _ _ _ 0%nat 1%nat); [left; reflexivity|exact S0|exact CL]. }
  assert (HB : forall q, In q (p_branch p) -> exists b, passive3 b /\ q = param3 b) by (intros q [<-|[<-|[]]]; [exists l3|exists t3]; split; auto).
  assert (HS : forall g, In g (p_shunt p) -> exists g1 g0, 0 <= re g1 /\ 0 <= re g0 /\ g = shunt_tensor complex_ops g1 g0).
  { intros g [<-|[]]. exists (1, 4), (2, 1). unfold re; cbn [fst]. split; [lra|]. split; [lra|reflexivity]. }
  assert (HC : forall b, (b < mt_n_bus feeder)%nat -> supplied cnum 3 a_tensor (combine (mt_branch feeder) (p_branch p)) (fun b => sources_at 0 b <> []) b).
  { intros b Hb. destruct b as [|[|[|b]]]; [exact S0|exact S1| |cbn in Hb; lia]. eapply (to_side _ _ _ _ _ 1%nat 2%nat); [right; left; reflexivity|exact S1|exact CT]. }
  exact (proj1 (C64_asymmetric feeder p (sources_at 0) (sources_at 2) (fun _ => y1) (fun _ => y0) (fun _ => u_ref) (fun _ => s) feeder_ok HB HS (fun _ _ _ => Logic.conj H1 H0) HC) (fun _ _ ph _ Hp => Hs ph Hp)).
Qed.

(** ** Without the conditions *)
Definition one_bus : math_topo := mkMathTopo 1 [] (mkDense 1 [0%nat]) [].
Lemma one_bus_ok : sub_grid_ok one_bus.
Proof.
  constructor; simpl.
  - intros k b H. destruct k; discriminate.
  - reflexivity.
  - repeat constructor.
  - intros b [<-|[]]; lia.
  - intros i j [].
  - intros p q i j Hp. destruct p; discriminate.
  - intros i j c Hf. destruct Hf as [[]|[]].
  - left. intros i Hi. assert (i = 0%nat) by lia. subst i. exists (mkElement E_shunt 0). apply m_shunt. reflexivity.
  - lia.
Qed.
Lemma one_bus_equation g y1 y0 u_ref s u : solves cnum 1 1 (prepare_linear cnum conj (a120 complex_ops) 1 1 (matrix1 complex_ops one_bus (mkParam [] [g] [] : @model_param C Datatypes.unit)) (sources_at 0) (sources_at 0) (fun _ => y1) (fun _ => y0) (fun _ => u_ref) (fun _ _ => s)) u ->
  cmul (csub (cadd g y1) (conj s)) (u 0%nat 0%nat) = cmul y1 u_ref.
Proof.
  intros H. assert (Q := H 0%nat 0%nat ltac:(lia) ltac:(lia)). clear H. cbn in Q. revert Q. generalize (u 0%nat 0%nat). intros w. destruct g, y1, u_ref, s, w. unfold cmul, cadd, csub, conj, re, im. cbn. intros [= A B]. f_equal; lra.
Qed.
(** A load of constant impedance that generates as much as the resistance of the source takes: no solution. *)
Theorem C64_generator_refuted : exists (g y1 s : C), 0 <= re g /\ 0 < re y1 /\ 0 < re s /\
  forall u, ~ solves cnum 1 1 (prepare_linear cnum conj (a120 complex_ops) 1 1 (matrix1 complex_ops one_bus (mkParam [] [g] [] : @model_param C Datatypes.unit)) (sources_at 0) (sources_at 0) (fun _ => y1) (fun _ => y1) (fun _ => (1, 0)) (fun _ _ => s)) u.
Proof.
  exists (0, 0), (1, 0), (1, 0). unfold re; cbn [fst]. split; [lra|]. split; [lra|]. split; [lra|]. intros u H. apply one_bus_equation in H. revert H. generalize (u 0%nat 0%nat). intros [a b]. unfold cmul, cadd, csub, conj, re, im. cbn. intros [= A B]. lra.
Qed.
(** A source without resistance and a capacitor in resonance with it, nothing generates: no solution. *)
Theorem C64_resonance_refuted : exists (g y1 s : C), 0 <= re g /\ 0 <= re y1 /\ re s <= 0 /\
  forall u, ~ solves cnum 1 1 (prepare_linear cnum conj (a120 complex_ops) 1 1 (matrix1 complex_ops one_bus (mkParam [] [g] [] : @model_param C Datatypes.unit)) (sources_at 0) (sources_at 0) (fun _ => y1) (fun _ => y1) (fun _ => (1, 0)) (fun _ _ => s)) u.
Proof.
  exists (0, 1), (0, -1), (0, 0). unfold re; cbn [fst]. split; [lra|]. split; [lra|]. split; [lra|]. intros u H. apply one_bus_equation in H. revert H. generalize (u 0%nat 0%nat). intros [a b]. unfold cmul, cadd, csub, conj, re, im. cbn. intros [= A B]. lra.
Qed.

Print Assumptions C64_symmetric.
Print Assumptions C64_asymmetric.
Print Assumptions C64_line.
Print Assumptions C64_link.
Print Assumptions C64_transformer.
Print Assumptions C64_transformer_losses.
Print Assumptions C64_order_symmetric.
Print Assumptions C64_order_asymmetric.
Print Assumptions C64_balanced.
Print Assumptions C64_balanced_iterative.
Print Assumptions C64_generator_refuted.
Print Assumptions C64_resonance_refuted.
