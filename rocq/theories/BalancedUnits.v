(** C61 in SI units: balanced results give the same values to the user whether they come from a symmetric or from an asymmetric calculation; the limits of
    voltage regulators do not. *)
From Coq Require Import Reals Lra QArith Qreals List.
From Verif Require Import Units UnitsFacts.
From Verif Require ReactivePower ReactivePowerSpec ReactivePowerProps.
Import ListNotations.
Local Open Scope R_scope.

Lemma pair_eq {A B : Type} (a a' : A) (b b' : B) : a = a' -> b = b' -> (a, b) = (a', b'). Proof. congruence. Qed.
Local Ltac pairs := repeat first [apply pair_eq|match goal with |- _ /\ _ => split end].
(** what an asymmetric calculation should report if a symmetric one reports [x]: a third per phase; the same per phase *)
Definition third (x : R) : val asymmetric R := (x / 3, x / 3, x / 3).
Definition each_phase (x : R) : val asymmetric R := (x, x, x).

(** the parameter of a load or generator: specified for all phases together, or for each phase a third *)
Theorem C61_specified : forall (k : appliance) (p q : R),
  load_calc_param symmetric asymmetric k p q = piecewise (load_calc_param symmetric symmetric k p q) /\
  load_calc_param asymmetric asymmetric k (third p) (third q) = piecewise (load_calc_param symmetric symmetric k p q) /\
  load_calc_param asymmetric symmetric k (third p) (third q) = load_calc_param symmetric symmetric k p q.
Proof.
  intros k p q. cbv [load_calc_param to_calculation s_specified piecewise third mean_cval mean_val vmap vmap2 base_power val fst snd re im base_power_1p base_power_3p].
  pairs; first [reflexivity|field].
Qed.
Lemma abs_phase x : cabs (cmul x a1) = cabs x /\ cabs (cmul x a2) = cabs x.
Proof.
  assert (S3 : sqrt 3 * sqrt 3 = 3) by (apply sqrt_sqrt; lra). destruct x as [x y].
  unfold cabs, norm2, cmul, a1, a2; cbn [re im fst snd]; split; f_equal.
  - transitivity ((1 / 4 + sqrt 3 * sqrt 3 / 4) * (x * x + y * y)); [field|rewrite S3; field].
  - transitivity ((1 / 4 + sqrt 3 * sqrt 3 / 4) * (x * x + y * y)); [field|rewrite S3; field].
Qed.
(** nodes *)
Theorem C61_node : forall (u_rated : R) (u s : C),
  let o1 := node_get_output symmetric u_rated u s in
  let o3 := node_get_output asymmetric u_rated (three_phases u) (piecewise s) in
  n_u_pu o3 = each_phase (n_u_pu o1) /\ n_u o3 = each_phase (n_u o1 / sqrt 3) /\ n_p o3 = third (n_p o1) /\ n_q o3 = third (n_q o1).
Proof.
  intros u_rated u s. assert (S3 : sqrt 3 <> 0) by (apply Rgt_not_eq, sqrt_lt_R0; lra).
  unfold node_get_output, three_phases, piecewise, each_phase, third. cbn [n_u_pu n_u n_p n_q vmap u_scale base_power fst snd].
  rewrite (proj1 (abs_phase u)), (proj2 (abs_phase u)). unfold base_power_1p. pairs; first [reflexivity|field; assumption|field].
Qed.
(** sides of branches, and their loading *)
Theorem C61_side : forall (u_rated : R) (s i : C),
  let o1 := side_get_output symmetric u_rated s i in
  let o3 := side_get_output asymmetric u_rated (piecewise s) (three_phases i) in
  b_p o3 = third (b_p o1) /\ b_q o3 = third (b_q o1) /\ b_s o3 = third (b_s o1) /\ b_i o3 = each_phase (b_i o1).
Proof.
  intros u_rated s i. unfold side_get_output, three_phases, piecewise, each_phase, third. cbn [b_p b_q b_s b_i vmap base_power fst snd].
  rewrite (proj1 (abs_phase i)), (proj2 (abs_phase i)). unfold base_power_1p. pairs; first [reflexivity|field].
Qed.
Theorem C61_loading : forall (r : branch_rating) (u1 u2 : R) (sf jf st jt : C),
  br_loading (branch_get_output asymmetric r u1 u2 (piecewise sf) (three_phases jf) (piecewise st) (three_phases jt)) =
  br_loading (branch_get_output symmetric r u1 u2 sf jf st jt).
Proof.
  intros r u1 u2 sf jf st jt. unfold branch_get_output. cbn [br_loading].
  destruct (C61_side u1 sf jf) as (_ & _ & S1 & I1). destruct (C61_side u2 st jt) as (_ & _ & S2 & I2). cbv zeta in *.
  rewrite S1, S2, I1, I2. unfold third, each_phase. cbn [sum_val max_val fst snd].
  assert (M : forall x, Rmax (Rmax x x) x = x) by (intros x; assert (E : Rmax x x = x) by (apply Rmax_left, Rle_refl); now rewrite !E).
  rewrite !M. assert (T : forall x, x / 3 + x / 3 + x / 3 = x) by (intros; field). now rewrite !T.
Qed.
(** loads, generators, sources and shunts *)
Theorem C61_appliance : forall (k : appliance) (u_rated : R) (s i : C),
  let o1 := appliance_get_output symmetric k u_rated s i in
  let o3 := appliance_get_output asymmetric k u_rated (piecewise s) (three_phases i) in
  a_p o3 = third (a_p o1) /\ a_q o3 = third (a_q o1) /\ a_s o3 = third (a_s o1) /\ a_i o3 = each_phase (a_i o1) /\
  (3 * numerical_tolerance <= a_s o1 -> a_pf o3 = each_phase (a_pf o1)).
Proof.
  intros k u_rated s i. unfold appliance_get_output, three_phases, piecewise, each_phase, third. cbn [a_p a_q a_s a_i a_pf vmap vmap2 base_power fst snd].
  rewrite (proj1 (abs_phase i)), (proj2 (abs_phase i)). unfold base_power_1p. pairs; try solve [reflexivity|field].
  intros H. set (S := base_power_3p * cabs s) in *. cbn [val] in *.
  assert (T : 0 < numerical_tolerance) by (unfold numerical_tolerance; lra).
  assert (E : base_power_3p / 3 * cabs s = S / 3) by (unfold S; field). rewrite E.
  assert (F : power_factor (base_power_3p / 3 * re s * injection_direction k) (S / 3) = power_factor (base_power_3p * re s * injection_direction k) S).
  { unfold power_factor. destruct (Rlt_dec (S / 3) numerical_tolerance); [lra|]. destruct (Rlt_dec S numerical_tolerance); [lra|]. field. lra. }
  rewrite F. reflexivity.
Qed.
Example C61_units_example :
  a_p (appliance_get_output asymmetric generator 10000 (piecewise (1, 0)) (three_phases (1, 0))) = third 1000000 /\ 3 * numerical_tolerance <= a_s (appliance_get_output symmetric generator 10000 (1, 0) (1, 0)).
Proof.
  split.
  - unfold appliance_get_output, piecewise, third. cbn [a_p vmap base_power fst snd re injection_direction]. unfold base_power_1p, base_power_3p. pairs; field.
  - unfold appliance_get_output. cbn [a_s vmap base_power]. unfold cabs, norm2, base_power_3p, numerical_tolerance. cbn [re im fst snd]. replace (1 * 1 + 0 * 0) with 1 by ring. rewrite sqrt_1. lra.
Qed.

(** ** The limits of voltage regulators *)
(** the power of one generator found by the division of the reactive power of its bus, ReactivePower.v, as a result of the calculation *)
Definition found (y : symmetry) (s : ReactivePower.power) : val y C :=
  let at_phase p := (Q2R (ReactivePower.pw_p s p), Q2R (ReactivePower.pw_q s p)) in
  match y with symmetric => at_phase 0%nat | asymmetric => (at_phase 0%nat, at_phase 1%nat, at_phase 2%nat) end.
Definition phases (y : symmetry) : nat := match y with symmetric => 1 | asymmetric => 3 end.
(** a generator that is held at a limit [q] of its regulator, in var *)
Definition held_at (y : symmetry) (q : R) (s : ReactivePower.power) : Prop :=
  exists tol load_gens status regulator_of s0 inj v s' lims l r m, (0 <= tol)%Q /\ NoDup load_gens /\ v <> ReactivePower.none /\
    ReactivePower.calculate_voltage_regulator_result (phases y) tol load_gens status regulator_of s0 inj v = ReactivePower.Reported s' lims /\
    ReactivePowerSpec.regulates load_gens status regulator_of l r /\ s = s' l /\
    (match v with ReactivePower.upper => ReactivePower.q_max r | _ => ReactivePower.q_min r end) = Some m /\ Q2R m = regulator_limit q.
Lemma held_total y q s : held_at y q s -> sum_val y (vmap im y (found y s)) = regulator_limit q.
Proof.
  intros (tol & lg & st & ro & s0 & inj & v & s' & lims & l & r & m & H1 & H2 & H3 & H4 & H5 & -> & H6 & <-).
  assert (Ph : phases y = 1%nat \/ phases y = 3%nat) by (destruct y; auto).
  pose proof (proj2 (ReactivePowerProps.C50_clamped (phases y) tol Ph H1 lg st ro H2 v s0 inj s' lims H3 H4 l r H5) m H6) as E.
  apply Qeq_eqR in E. rewrite <- E. destruct y; unfold ReactivePowerSpec.all_phases; cbn [phases seq map vmap sum_val found fst snd im ReactivePowerSpec.qsum fold_right]; rewrite ?Q2R_plus; replace (Q2R 0) with 0 by (unfold Q2R; cbn; field); ring.
Qed.
(** In a symmetric calculation a generator held at a limit reports that limit, as documented; in an asymmetric one the sum of the phases is a third of it. *)
Theorem C61_regulator_limit : forall q s u_rated i, held_at symmetric q s -> a_q (appliance_get_output symmetric generator u_rated (found symmetric s) i) = q.
Proof.
  intros q s u_rated i H. apply held_total in H. unfold appliance_get_output. cbn [a_q vmap base_power sum_val injection_direction] in *. rewrite H.
  change (base_power_3p * (q / base_power_3p) * 1 = q). field. unfold base_power_3p. lra.
Qed.
Theorem C61_regulator_limit_asymmetric : forall q s u_rated i, held_at asymmetric q s ->
  sum_val asymmetric (a_q (appliance_get_output asymmetric generator u_rated (found asymmetric s) i)) = q / 3.
Proof.
  intros q s u_rated i H. apply held_total in H. unfold appliance_get_output. cbn [a_q vmap base_power sum_val injection_direction fst snd] in *.
  transitivity (base_power_1p * regulator_limit q); [rewrite <- H; ring|]. unfold regulator_limit, base_power_1p. field. unfold base_power_3p. lra.
Qed.
Definition lim_reg : ReactivePower.regulator := ReactivePower.mkReg true (Some (-1)%Q) (Some 1%Q).
Lemma held_example y : exists s, held_at y 1000000 s.
Proof.
  exists (ReactivePower.mkPower (fun _ => 1%Q) (ReactivePower.distribute_q (phases y) 0 1 (fun _ => 0%Q))).
  exists 0%Q, [0%nat], (fun _ => true), (fun _ => Some lim_reg), (fun _ => ReactivePower.mkPower (fun _ => 1%Q) (fun _ => 0%Q)), (fun _ => 5%Q), ReactivePower.upper.
  eexists. eexists. exists 0%nat, lim_reg, 1%Q. repeat split.
  - apply Qle_refl.
  - constructor; [intros []|constructor].
  - discriminate.
  - now left.
  - unfold regulator_limit, base_power_3p, Q2R. cbn. field.
Qed.
Theorem C61_regulator_limit_refuted : exists q s, held_at asymmetric q s /\
  forall u_rated i, sum_val asymmetric (a_q (appliance_get_output asymmetric generator u_rated (found asymmetric s) i)) <> q.
Proof.
  destruct (held_example asymmetric) as [s H]. exists 1000000, s. split; [exact H|]. intros u_rated i. rewrite (C61_regulator_limit_asymmetric 1000000 s u_rated i H). lra.
Qed.
Print Assumptions C61_loading.
Print Assumptions C61_regulator_limit_refuted.
