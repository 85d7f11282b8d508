(** C64: the branches by which a bus is connected: closed lines, links and transformers with losses. *)
From Coq Require Import Reals ZArith Lra Lia Bool.
From Verif Require Import Common NatMap GroupedIdx Numbers ShortCircuit PowerFlow PowerFlowSpec BalancedSpec BalancedGrid YBus YBusSpec Component Taps Units UnitsFacts Ratings RatingsSpec RatingsFacts RatingsProps LossesSpec LossesFacts LossesProps LossesMore SolvableSpec SolvableFacts SolvableKernel SolvableProps.
From Verif Require Import TwoPort TwoPortSpec TwoPortFacts.
Local Open Scope R_scope.

(** a short circuit at one side: the power the branch takes at the other, in one phase and in three *)
Definition connects (q : two_port C) : Prop := 0 < re (TwoPort.yff q) /\ 0 < re (TwoPort.ytt q).
Definition connects3 (q : two_port mat) : Prop :=
  resistive cnum 3 a_tensor (tensor_of (TwoPort.yff q)) /\ resistive cnum 3 a_tensor (tensor_of (TwoPort.ytt q)).
Lemma re_inv_pos z : 0 < re z -> 0 < re (cinv z).
Proof.
  intros H. unfold cinv. cbn [re fst]. fold (re z) (norm2 z). apply Rdiv_lt_0_compat; [exact H|]. apply norm2_pos. intros E. rewrite E in H. cbn in H. lra.
Qed.
Lemma closed_connects ys ysh n : 0 < re ys -> 0 <= re ysh -> n <> (0, 0) -> connects (calc_param_y_sym complex_ops true true ys ysh n).
Proof.
  intros A B N. unfold calc_param_y_sym, connects. cbn [andb negb]. cbv zeta. cbn [TwoPort.yff TwoPort.ytt]. cbn [complex_ops c_abs c_div c_mul c_1 c_add]. rewrite !half_mul, !real_div.
  assert (P : 0 < / cabs n) by (apply Rinv_0_lt_compat; unfold cabs; apply sqrt_lt_R0, norm2_pos; exact N).
  split; [|rewrite re_add, re_scale; lra].
  replace (cmul (cscale (/ cabs n) (cscale (/ cabs n) (1, 0))) (cadd ys (cscale (/ 2) ysh))) with (cscale (/ cabs n * / cabs n) (cadd ys (cscale (/ 2) ysh))) by (creal; ring).
  rewrite re_scale, re_add, re_scale. apply Rmult_lt_0_compat; [apply Rmult_lt_0_compat; exact P|lra].
Qed.
Lemma sequences_connect p q0 q1 q2 : acts_as complex_ops p (positive complex_ops) q1 -> acts_as complex_ops p (negative complex_ops) q2 -> acts_as complex_ops p (equal_phases complex_ops) q0 ->
  connects q1 -> connects q2 ->
  (0 < re (TwoPort.yff q0) -> resistive cnum 3 a_tensor (tensor_of (TwoPort.yff p))) /\ (0 < re (TwoPort.ytt q0) -> resistive cnum 3 a_tensor (tensor_of (TwoPort.ytt p))).
Proof.
  intros A1 A2 A0 [F1 T1] [F2 T2]. split; intros H0; apply resistive3.
  - apply (resistive_sequences _ (TwoPort.yff q0) (TwoPort.yff q1) (TwoPort.yff q2)); auto; intros u; [apply (A0 u)|apply (A1 u)|apply (A2 u)].
  - apply (resistive_sequences _ (TwoPort.ytt q0) (TwoPort.ytt q1) (TwoPort.ytt q2)); auto; intros u; [apply (A0 u)|apply (A1 u)|apply (A2 u)].
Qed.
Lemma closed_connects3 y1 s1 y0 s0 n : 0 < re y1 -> 0 <= re s1 -> 0 < re y0 -> 0 <= re s0 -> n <> (0, 0) -> connects3 (calc_param_y_asym complex_ops true true y1 s1 y0 s0 n).
Proof.
  intros A B A0 B0 N. destruct (line_sequences complex_ops complex_laws true true y1 s1 y0 s0 n complex_rots) as (H1 & H2 & H0).
  destruct (sequences_connect _ _ _ _ H1 H2 H0) as [F T]; try now apply closed_connects. destruct (closed_connects y0 s0 n A0 B0 N). split; auto.
Qed.

(** ** Lines with a resistance, closed at both sides *)
Theorem C64_line : forall (f u1 u2 : R) (i : line_in) (b : branch_kind), line_new f u1 u2 i = Some b -> 0 < u1 -> 0 <= f -> 0 < li_r1 i -> 0 <= li_c1 i * li_tan1 i ->
  connects (calc_param_sym complex_ops true true true b) /\
  (0 < li_r0 i -> 0 <= li_c0 i * li_tan0 i -> forall p, calc_param_asym complex_ops true true true b = Some p -> connects3 p).
Proof.
  intros f u1 u2 i b. unfold line_new. destruct (Rlt_dec _ _); [discriminate|]. intros [= <-] U F R1 T1.
  assert (S : forall r x, 0 < r -> 0 < re (line_series u1 r x)) by (intros; apply Rmult_lt_0_compat; [apply Rinv_0_lt_compat; now apply base_y_pos|apply re_inv_pos; assumption]).
  assert (P : forall c t, 0 <= c * t -> 0 <= re (line_shunt f u1 c t)).
  { intros c t H. unfold line_shunt, cscale, re; cbn [fst snd]. unfold Rdiv. replace (2 * PI * f * c * / base_y u1 * t) with (2 * PI * f * / base_y u1 * (c * t)) by ring.
    pose proof PI_RGT_0. pose proof (base_y_inv u1 U). apply Rmult_le_pos; [|exact H]. apply Rmult_le_pos; [|assumption]. apply Rmult_le_pos; lra. }
  unfold calc_param_sym, calc_param_asym. cbn [energized andb orb sym_calc_param asym_calc_param].
  split; [apply closed_connects; auto; apply LossesProps.one_nz|].
  intros R0 T0 p Hp. apply some_eq in Hp. subst p. apply closed_connects3; auto; apply LossesProps.one_nz.
Qed.
Theorem C64_link : connects (calc_param_sym complex_ops true true true link_new) /\ forall p, calc_param_asym complex_ops true true true link_new = Some p -> connects3 p.
Proof.
  unfold calc_param_sym, calc_param_asym. cbn [energized andb orb sym_calc_param asym_calc_param link_new]. assert (0 < g_link) by (unfold g_link, base_power_3p; lra).
  split; [apply closed_connects|intros p Hp; apply some_eq in Hp; subst p; apply closed_connects3]; cbn [complex_ops c_0]; unfold re; cbn [fst]; try lra; apply LossesProps.one_nz.
Qed.
(** ** Transformers with load losses, closed at both sides *)
Lemma transformer_ratio tp n : dissipative_transformer tp -> c_mul complex_ops (tp_k tp) (c_rot complex_ops n) <> (0, 0).
Proof.
  intros (_ & _ & _ & K0 & K1 & _). assert (E : c_mul complex_ops (tp_k tp) (c_rot complex_ops n) = cscale (re (tp_k tp)) (cexp (IZR n * (PI / 6)))).
  { cbn [complex_ops c_mul c_rot]. replace (tp_k tp) with (re (tp_k tp), 0) at 1 by (apply c_eq; [reflexivity|symmetry; exact K0]). creal; ring. }
  rewrite E. apply scale_nz; [exact K1|apply clock_unit].
Qed.
(** In an asymmetric calculation, from a delta to an earthed star only that way: the zero sequence of the star is earthed, the one of the delta is left alone. Between two earthed stars both ways. *)
Theorem C64_transformer : forall tp, dissipative_transformer tp -> 0 < re (tp_y_series tp) ->
  connects (calc_param_sym complex_ops true true true (KTransformer tp)) /\
  forall p, calc_param_asym complex_ops true true true (KTransformer tp) = Some p ->
   (tp_winding_from tp = Delta -> tp_winding_to tp = WyeN -> resistive cnum 3 a_tensor (tensor_of (TwoPort.ytt p))) /\
   (tp_winding_from tp = WyeN -> tp_winding_to tp = Delta -> resistive cnum 3 a_tensor (tensor_of (TwoPort.yff p))) /\
   (tp_winding_from tp = WyeN -> tp_winding_to tp = WyeN -> connects3 p).
Proof.
  intros tp D Y. pose proof D as (_ & Hh & Hz & K0 & K1 & G1 & G2 & _). unfold calc_param_sym, calc_param_asym. cbn [energized andb orb sym_calc_param asym_calc_param].
  assert (C1 : connects (transformer_sym complex_ops true true tp)) by (unfold transformer_sym; apply closed_connects; auto using transformer_ratio).
  split; [exact C1|]. intros p Hp. apply some_eq in Hp. subst p. destruct (transformer_sequences complex_ops complex_laws true true tp complex_rots) as (H1 & H2 & H0).
  destruct (sequences_connect _ _ _ _ H1 H2 H0 C1) as [F T]; [apply closed_connects; auto using transformer_ratio|]. clear H1 H2 H0 C1.
  assert (EK : tp_k tp = (re (tp_k tp), 0)) by (apply c_eq; [reflexivity|exact K0]). 
  assert (Z0 : 0 < re (cadd (tp_y0_shunt tp) (tp_y_series tp))) by (rewrite re_add; lra).
  assert (N0 : c_eq0 complex_ops (cadd (tp_y0_shunt tp) (tp_y_series tp)) = false).
  { destruct (c_eq0 complex_ops (cadd (tp_y0_shunt tp) (tp_y_series tp))) eqn:E; [|reflexivity]. exfalso. apply (cl_eq0 complex_ops complex_laws) in E. rewrite E in Z0. cbn in Z0. lra. }
  assert (KK : 0 < / re (tp_k tp) * / re (tp_k tp)) by (pose proof (Rinv_neq_0_compat _ K1) as Q; nra).
  split; [|split]; intros WF WT.
  - apply T. unfold transformer_param0, transformer_param0_path. rewrite WF, WT. cbn [is_wye_n is_delta is_zigzag_n andb negb orb zero_seq_available].
    rewrite three_c'. cbn [complex_ops c_add c_mul c_div c_1 c_0]. fold (cadd (tp_y0_shunt tp) (tp_y_series tp)). cbv zeta. rewrite N0. cbn [TwoPort.yff TwoPort.ytt].
    rewrite !one_div, three_mul. apply re_inv_pos. rewrite re_add, re_scale. pose proof (re_inv_pos _ Z0). lra.
  - apply F. unfold transformer_param0, transformer_param0_path. rewrite WF, WT. cbn [is_wye_n is_delta is_zigzag_n andb negb orb zero_seq_available].
    rewrite EK, three_c'. cbn [complex_ops c_add c_mul c_div c_1 c_0]. fold (cadd (tp_y0_shunt tp) (tp_y_series tp)). cbv zeta. rewrite N0. cbn [TwoPort.yff TwoPort.ytt].
    rewrite !real_div, !one_div, three_mul, !re_scale. rewrite <- Rmult_assoc. apply Rmult_lt_0_compat; [exact KK|]. apply re_inv_pos. rewrite re_add, !re_scale. pose proof (re_inv_pos _ Z0).
    assert (0 <= / re (tp_k tp) * (/ re (tp_k tp) * (3 * re (tp_z_grounding_from tp)))) by (apply inv2_nn; lra). lra.
  - assert (Q : connects (transformer_param0 complex_ops true true tp)).
    { unfold transformer_param0, transformer_param0_path. rewrite WF, WT. cbn [is_wye_n is_delta is_zigzag_n andb negb orb zero_seq_available]. cbv zeta.
      match goal with |- connects (mkTwoPort (TwoPort.yff ?q) _ _ _) => enough (connects q) by assumption end.
      apply closed_connects; [|exact Hz|apply transformer_ratio; exact D].
      rewrite three_c', EK. cbn [complex_ops c_add c_mul c_div c_1]. rewrite !real_div, !one_div, three_mul. apply re_inv_pos. rewrite re_add, re_scale, re_add, !re_scale. pose proof (re_inv_pos _ Y). pose proof (inv2_nn (re (tp_k tp)) _ G1). lra. }
    destruct Q. split; auto.
Qed.
(** and the transformers of the user are such: losses at the tap position that are positive *)
Theorem C64_transformer_losses : forall (t : taps) (clock : Z) (i : transformer_in) (u1_rated u2_rated : R), 0 < u1_rated -> 0 < u2_rated -> tr_sn i <> 0 ->
  let '(u1, u2) := if tr_tap_at_from i then (tap_voltage real_ops t (tr_u1 i) (tr_tap_size i), tr_u2 i) else (tr_u1 i, tap_voltage real_ops t (tr_u2 i) (tr_tap_size i)) in
  u1 <> 0 -> u2 <> 0 ->
  let value x d := match x with Some v => v | None => d end in
  0 < adjust real_ops t (tr_pk i) (value (tr_pk_min i) (tr_pk i)) (value (tr_pk_max i) (tr_pk i)) -> 0 <= tr_p0 i ->
  (let i0_zero := value (tr_i0_zero i) (tr_i0 i) in 0 <= value (tr_p0_zero i) (tr_p0 i + tr_pk i * (i0_zero * i0_zero - tr_i0 i * tr_i0 i))) ->
  0 <= value (tr_r_from i) 0 -> 0 <= value (tr_r_to i) 0 ->
  dissipative_transformer (transformer_at t clock i u1_rated u2_rated) /\ 0 < re (tp_y_series (transformer_at t clock i u1_rated u2_rated)).
Proof.
  intros t clock i u1r u2r U1r U2r SN. pose proof (transformer_dissipative t clock i u1r u2r U1r U2r SN) as D0. revert D0. fold (tap_voltages t i). destruct (tap_voltages t i) as [u1 u2] eqn:Ev. cbv beta zeta.
  intros D0 U1 U2 PK P0 P00 RF RT. split; [apply D0; auto; lra|]. clear D0.
  unfold transformer_at. rewrite Ev. cbn [tp_y_series]. cbv zeta. rewrite re_scale. apply Rmult_lt_0_compat; [apply Rinv_0_lt_compat; rewrite <- (Rinv_inv (base_i u2r * base_i u2r / base_power_1p)); rewrite (base_y_to u2r U2r), Rinv_inv; now apply base_y_pos|].
  apply re_inv_pos. unfold z_series, re; cbn [fst]. unfold or_else.
  replace (adjust real_ops t (tr_pk i) (match tr_pk_min i with Some v => v | None => tr_pk i end) (match tr_pk_max i with Some v => v | None => tr_pk i end) * u2 * u2 / tr_sn i / tr_sn i)
    with (adjust real_ops t (tr_pk i) (match tr_pk_min i with Some v => v | None => tr_pk i end) (match tr_pk_max i with Some v => v | None => tr_pk i end) * ((u2 / tr_sn i) * (u2 / tr_sn i))) by (field; exact SN).
  apply Rmult_lt_0_compat; [exact PK|]. assert (Q : u2 / tr_sn i <> 0) by (unfold Rdiv; apply Rmult_integral_contrapositive_currified; [exact U2|now apply Rinv_neq_0_compat]). nra.
Qed.
