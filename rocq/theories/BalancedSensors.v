(** C66: the sensors of balanced quantities give the same measurements to symmetric and asymmetric state estimations; where they do not. *)
From Coq Require Import Reals List ZArith Lra.
From Verif Require Import Units UnitsSpec UnitsFacts SensorVariance.
Import ListNotations.
Local Open Scope R_scope.

(** ** Power: the same value and variance in every phase as in the symmetric calculation *)
Theorem C66_power_sensor : forall t ap,
  (forall p q given, each asymmetric (eq (power_calc_value symmetric symmetric t p q)) (power_calc_value symmetric asymmetric t p q) /\
     each asymmetric (eq (power_variance symmetric symmetric ap given)) (power_variance symmetric asymmetric ap given)) /\
  (forall p q given, each asymmetric (eq (power_calc_value asymmetric symmetric t (p, p, p) (q, q, q))) (power_calc_value asymmetric asymmetric t (p, p, p) (q, q, q)) /\
     each asymmetric (eq (power_variance asymmetric symmetric ap (option_map (fun s => (s, s, s)) given))) (power_variance asymmetric asymmetric ap (option_map (fun s => (s, s, s)) given))).
Proof.
  intros t ap. split; intros p q given.
  - split; [cbn; auto|]. destruct given; cbn; auto.
  - split.
    + cbn. repeat split; apply injective_projections; cbn; field; unfold base_power_1p, base_power_3p; lra.
    + destruct given; cbn; repeat split; auto; field; unfold base_power_1p, base_power_3p; lra.
Qed.

(** ** Voltage: the same phasor in phase a, the others lag; or the same magnitude in every phase *)
Definition same_voltage_value (v1 : voltage_value symmetric) (v3 : voltage_value asymmetric) : Prop :=
  match v1, v3 with
  | phasor u1, phasor u3 => fst (fst u3) = u1 /\ balanced_phasors u3
  | magnitude m1, magnitude m3 => each asymmetric (eq m1) m3
  | _, _ => False
  end.
Theorem C66_voltage_sensor : forall u_rated,
  (forall u angle, same_voltage_value (voltage_calc_value symmetric symmetric u_rated u angle) (voltage_calc_value symmetric asymmetric u_rated u angle)) /\
  (forall u, same_voltage_value (voltage_calc_value asymmetric symmetric u_rated (u, u, u) None) (voltage_calc_value asymmetric asymmetric u_rated (u, u, u) None)) /\
  (forall u angle, balanced u angle ->
     same_voltage_value (voltage_calc_value asymmetric symmetric u_rated u (Some angle)) (voltage_calc_value asymmetric asymmetric u_rated u (Some angle))).
Proof.
  intros u_rated. split; [|split].
  - intros u [angle|]; cbn; [|auto]. rewrite <- a1_cexp, <- a2_cexp. auto.
  - intros u. cbn. repeat split; lra.
  - intros [[x y] z] [[p q] r] (-> & -> & E1 & E2). cbn [voltage_calc_value u_pu_measured vmap vmap2 fst snd same_voltage_value pos_seq]. unfold polar.
    rewrite (cexp_of_same_angle _ _ E1), (cexp_of_same_angle _ _ E2), a1_cexp, a2_cexp, !cmul_polar.
    replace (p - 2 * PI / 3 + 2 * PI / 3) with p by lra. replace (p + 2 * PI / 3 + - (2 * PI / 3)) with p by lra.
    generalize (x * (1 / (u_rated * u_scale asymmetric))). intros m. split; [apply injective_projections; unfold cscale, cadd, re, im; cbn; field|].
    split; rewrite cmul_polar; reflexivity.
Qed.

(** ** Current of a symmetric sensor with an angle of its own: the same phasor in phase a, the others lag, with the same variance *)
Lemma total_variance m u mv av : cabs u = 1 -> fst (of_unit m u mv av) + snd (of_unit m u mv av) = mv + m * m * av + 1 / 2 * m * m * av * av + mv * av.
Proof.
  intros H. assert (E : re u * re u + im u * im u = 1) by (pose proof (cabs_sq u) as Q; rewrite H in Q; unfold norm2 in Q; lra).
  unfold of_unit, decomposed_variance. cbn [fst snd]. replace (mv + m * m * av + 1 / 2 * m * m * av * av + mv * av) with ((mv + m * m * av + 1 / 2 * m * m * av * av + mv * av) * (re u * re u + im u * im u)) by (rewrite E; ring).
  field.
Qed.
Theorem C66_current_sensor : forall u_rated i angle i_sigma i_angle_sigma,
  fst (fst (current_calc_value symmetric asymmetric u_rated i angle)) = current_calc_value symmetric symmetric u_rated i angle /\
  balanced_phasors (current_calc_value symmetric asymmetric u_rated i angle) /\
  each asymmetric (eq (current_variance symmetric symmetric u_rated i angle i_sigma i_angle_sigma)) (current_variance symmetric asymmetric u_rated i angle i_sigma i_angle_sigma).
Proof.
  intros u_rated i angle si sa. split; [reflexivity|]. split; [cbn; rewrite <- a1_cexp, <- a2_cexp; auto|].
  unfold current_variance. cbn [vmap vmap2 current_variances three_phases fst snd each].
  rewrite !total_variance; [auto|rewrite cabs_mul, cabs_cexp, cabs_a1; lra|rewrite cabs_mul, cabs_cexp, cabs_a2; lra|apply cabs_cexp|apply cabs_cexp].
Qed.
(** The variances of real and imaginary part: an error of the magnitude acts along the phasor, an error of the angle across it (and shortens it, in the second order).
    A symmetric sensor is in every phase one that reads the angle of that phase; the mean of three phases turned to phase a has a third of the variances of one phase. *)
Theorem C66_current_components : forall m angle mv av,
  let along := mv + m * m * av * av / 2 in let across := m * m * av + mv * av in
  current_variances symmetric symmetric m angle mv av = (along * (cos angle)² + across * (sin angle)², along * (sin angle)² + across * (cos angle)²) /\
  (let '(a3, b3) := current_variances symmetric asymmetric m angle mv av in
   forall p q, same_angle p (angle - 2 * PI / 3) -> same_angle q (angle + 2 * PI / 3) ->
     current_variances asymmetric asymmetric (m, m, m) (angle, p, q) mv av = (a3, b3) /\
     fst (current_variances asymmetric symmetric (m, m, m) (angle, p, q) mv av) = fst (current_variances symmetric symmetric m angle mv av) / 3 /\
     snd (current_variances asymmetric symmetric (m, m, m) (angle, p, q) mv av) = snd (current_variances symmetric symmetric m angle mv av) / 3).
Proof.
  intros m angle mv av along across. split.
  - unfold current_variances, of_unit, decomposed_variance, cexp, re, im, along, across, Rsqr. cbn [fst snd]. f_equal; field.
  - cbn [current_variances vmap vmap2 three_phases fst snd sum_val]. intros p q E1 E2.
    rewrite (cexp_of_same_angle _ _ E1), (cexp_of_same_angle _ _ E2).
    assert (T1 : cmul (cexp angle) a2 = cexp (angle - 2 * PI / 3)) by (rewrite a2_cexp, <- cexp_plus; f_equal; lra).
    assert (T2 : cmul (cexp angle) a1 = cexp (angle + 2 * PI / 3)) by (rewrite a1_cexp, <- cexp_plus; f_equal; lra).
    assert (T3 : cmul a1 (cexp (angle - 2 * PI / 3)) = cexp angle) by (rewrite a1_cexp, <- cexp_plus; f_equal; lra).
    assert (T4 : cmul a2 (cexp (angle + 2 * PI / 3)) = cexp angle) by (rewrite a2_cexp, <- cexp_plus; f_equal; lra).
    rewrite T3, T4. split; [|generalize (of_unit m (cexp angle) mv av); intros [x y]; cbn [fst snd]; change ((x + x + x) / 9 = x / 3 /\ (y + y + y) / 9 = y / 3); split; field].
    rewrite T1, T2. reflexivity.
Qed.
(** Refuted for an asymmetric sensor: in the symmetric calculation its variance is a third of that of each phase in the asymmetric one,
    so that balanced measurements that do not agree are weighted differently. *)
Theorem C66_asymmetric_current_refuted : forall u_rated i angle i_sigma i_angle_sigma, balanced i angle -> 0 < u_rated -> i_sigma <> 0 ->
  let '(va, vb, vc) := current_variance asymmetric asymmetric u_rated i angle i_sigma i_angle_sigma in
  va = vb /\ vb = vc /\ va = 3 * current_variance asymmetric symmetric u_rated i angle i_sigma i_angle_sigma /\ va <> current_variance asymmetric symmetric u_rated i angle i_sigma i_angle_sigma.
Proof.
  intros u_rated [[x y] z] [[p q] r] si sa (-> & -> & _ & _) Hu Hs. unfold current_variance. cbn [vmap vmap2 current_variances fst snd sum_val].
  set (b := 1 / base_current u_rated). rewrite !total_variance by apply cabs_cexp. set (v := _ + _).
  assert (E : forall f, (forall w, cabs w = 1 -> fst (f w) + snd (f w) = v) -> forall w1 w2 w3 : C, cabs w1 = 1 -> cabs w2 = 1 -> cabs w3 = 1 ->
    (fst (f w1) + fst (f w2) + fst (f w3)) / 9 + (snd (f w1) + snd (f w2) + snd (f w3)) / 9 = v / 3 :> R).
  { intros f F w1 w2 w3 H1 H2 H3. pose proof (F w1 H1). pose proof (F w2 H2). pose proof (F w3 H3). lra. }
  rewrite (E (fun w => of_unit (x * b) w (si * b * (si * b)) (sa * sa))); [|intros w Hw; apply total_variance; exact Hw|apply cabs_cexp|rewrite cabs_mul, cabs_cexp, cabs_a1; lra|rewrite cabs_mul, cabs_cexp, cabs_a2; lra].
  assert (Pb : 0 < b).
  { unfold b, base_current. pose proof sqrt3_pos. apply Rdiv_lt_0_compat; [lra|]. apply Rdiv_lt_0_compat; [|exact Hu]. apply Rmult_lt_0_compat; [unfold base_power_3p; lra|apply Rinv_0_lt_compat; lra]. }
  assert (V : 0 < v).
  { unfold v. assert (0 < si * b * (si * b)). { assert (si * b <> 0) by (apply Rmult_integral_contrapositive_currified; lra). nra. }
    assert (0 <= x * b * (x * b)) by nra. assert (0 <= sa * sa) by nra. assert (0 <= x * b * (x * b) * (sa * sa)) by (apply Rmult_le_pos; assumption).
    assert (0 <= 1 / 2 * (x * b) * (x * b) * (sa * sa) * (sa * sa)). { replace (1 / 2 * (x * b) * (x * b) * (sa * sa) * (sa * sa)) with (1 / 2 * (x * b * (x * b) * (sa * sa) * (sa * sa))) by ring. apply Rmult_le_pos; [lra|]. apply Rmult_le_pos; assumption. }
    assert (0 <= si * b * (si * b) * (sa * sa)) by (apply Rmult_le_pos; lra). lra. }
  repeat split; lra.
Qed.
Example C66_balanced_example : balanced (1, 1, 1) (0, - (2 * PI / 3), 2 * PI / 3).
Proof. cbn. repeat split; exists 0%Z; lra. Qed.

(** ** The start with measured angles: the mean of angles between -180 and 180 degrees is not taken alike in the three phases *)
Lemma arg_cexp t : - PI < t <= PI -> arg (cexp t) = t.
Proof.
  intros H. pose proof PI_RGT_0 as P. unfold arg. rewrite cabs_cexp. unfold cexp, re, im. cbn [fst snd]. replace (cos t / 1) with (cos t) by field. destruct (Rlt_dec (sin t) 0) as [L|L].
  - assert (t < 0). { destruct (Rlt_dec t 0); [assumption|]. pose proof (sin_ge_0 t) as G. lra. }
    rewrite <- (cos_neg t). rewrite acos_cos by lra. lra.
  - assert (0 <= t). { destruct (Rle_dec 0 t); [assumption|]. assert (sin t < 0) by (apply sin_lt_0_var; lra). lra. }
    apply acos_cos. lra.
Qed.
(** Measured angles at most 60 degrees from the phase shifts of their buses: the start is balanced, with the mean of the differences and the phase shift of the bus.
    A measurement is given by magnitude, difference of the angle and phase shift. *)
Definition measured (d : R * R * R) : val symmetric C * R := (polar (fst (fst d)) (snd (fst d) + snd d), snd d).
Definition measured3 (d : R * R * R) : val asymmetric C * R :=
  ((polar (fst (fst d)) (snd (fst d) + snd d), polar (fst (fst d)) (snd (fst d) + snd d - 2 * PI / 3), polar (fst (fst d)) (snd (fst d) + snd d + 2 * PI / 3)), snd d).
Definition mean_of (ds : list (R * R * R)) : R := fold_right (fun d acc => snd (fst d) + acc) 0 ds / INR (length ds).
Lemma same_triple (x y z x' y' z' : R) : x = x' -> y = y' -> z = z' -> (x, y, z) = (x', y', z').
Proof. intros -> -> ->. reflexivity. Qed.
Lemma arg_measured m t s : 0 < m -> - PI < t <= PI -> arg (cmul (polar m (t + s)) (cexp (- s))) = t.
Proof.
  intros Hm Ht. unfold polar. rewrite cmul_polar. replace (t + s + - s) with t by ring. transitivity (arg (cexp t)); [|now apply arg_cexp].
  unfold arg. rewrite cabs_scale, cabs_cexp by lra. unfold cscale, cexp, re, im. cbn [fst snd]. replace (m * cos t / (m * 1)) with (cos t / 1) by (field; lra).
  destruct (Rlt_dec (m * sin t) 0), (Rlt_dec (sin t) 0); try reflexivity; nra.
Qed.
Theorem C66_start_measured : forall ds shift, ds <> [] -> Forall (fun d => 0 < fst (fst d) /\ - (PI / 3) < snd (fst d) <= PI / 3) ds ->
  start_voltage symmetric (map measured ds) shift = cexp (mean_of ds + shift) /\
  fst (fst (start_voltage asymmetric (map measured3 ds) shift)) = cexp (mean_of ds + shift) /\ balanced_phasors (start_voltage asymmetric (map measured3 ds) shift).
Proof.
  intros ds shift Hn H. pose proof PI_RGT_0 as P.
  assert (L : INR (length ds) <> 0) by (destruct ds; [congruence|]; apply not_0_INR; discriminate).
  assert (E1 : forall acc, fold_left (fun acc m => vmap2 Rplus symmetric acc (angle_of symmetric m)) (map measured ds) acc = acc + fold_right (fun d acc => snd (fst d) + acc) 0 ds).
  { clear Hn L. induction H as [|d ds [Hd1 Hd2] _ IH]; intros acc; cbn [map fold_left fold_right]; [symmetry; apply Rplus_0_r|]. rewrite IH. cbn [vmap2 angle_of measured vmap fst snd].
    rewrite arg_measured by lra. apply Rplus_assoc. }
  assert (E3 : forall x y z, fold_left (fun acc m => vmap2 Rplus asymmetric acc (angle_of asymmetric m)) (map measured3 ds) (x, y, z) =
    (x + fold_right (fun d acc => snd (fst d) + acc) 0 ds, y + fold_right (fun d acc => snd (fst d) + acc) 0 ds - INR (length ds) * (2 * PI / 3), z + fold_right (fun d acc => snd (fst d) + acc) 0 ds + INR (length ds) * (2 * PI / 3))).
  { clear Hn L E1. induction H as [|d ds [Hd1 Hd2] _ IH]; intros x y z; [cbn [map fold_left fold_right length INR]; apply same_triple; ring|]. cbn [map fold_left fold_right length]. unfold vmap2 at 2. cbn [angle_of measured3 vmap fst snd]. rewrite S_INR.
    replace (snd (fst d) + snd d - 2 * PI / 3) with (snd (fst d) - 2 * PI / 3 + snd d) by ring. replace (snd (fst d) + snd d + 2 * PI / 3) with (snd (fst d) + 2 * PI / 3 + snd d) by ring.
    rewrite !arg_measured by lra. etransitivity; [apply IH|]. apply same_triple; ring. }
  unfold start_voltage, mean_angle_shift. rewrite E1, E3, !map_length. cbn [vmap fst snd]. unfold mean_of. set (f := fold_right _ _ _). split; [f_equal; field; exact L|].
  split; [f_equal; field; exact L|]. split; rewrite <- cexp_plus; f_equal; field; exact L.
Qed.
Example C66_start_example : Forall (fun d => 0 < fst (fst d) /\ - (PI / 3) < snd (fst d) <= PI / 3) [(1, PI / 6, - PI); (2, - (PI / 4), 0)].
Proof. pose proof PI_RGT_0. repeat constructor; cbn; lra. Qed.
(** Two buses with the angles -30 and -90 degrees in phase a: phase b has -150 and 150 degrees, the mean is 0 instead of 180. *)
Theorem C66_start_refuted : exists ms1 ms3,
  Forall2 (fun m1 m3 => snd m3 = snd m1 /\ fst (fst (fst m3)) = fst m1 /\ balanced_phasors (fst m3)) ms1 ms3 /\
  ~ balanced_phasors (start_voltage asymmetric ms3 0) /\ fst (fst (start_voltage asymmetric ms3 0)) = start_voltage symmetric ms1 0.
Proof.
  set (t1 := - (PI / 6)). set (t2 := - (PI / 2)). pose proof PI_RGT_0 as P.
  exists [(cexp t1, 0); (cexp t2, 0)], [((cexp t1, cexp (t1 - 2 * PI / 3), cexp (t1 + 2 * PI / 3)), 0); ((cexp t2, cexp (t2 + 4 * PI / 3), cexp (t2 + 2 * PI / 3)), 0)].
  assert (M : forall z, cmul z (cexp (- 0)) = z). { intros [x y]. unfold cmul, cexp, re, im. cbn [fst snd]. rewrite Ropp_0, cos_0, sin_0. f_equal; ring. }
  assert (R : forall s t, cexp (s + t) = cmul (cexp s) (cexp t)) by (intros; apply cexp_plus).
  split; [|split].
  - constructor; [|constructor; [|constructor]]; cbn [fst snd]; split; try reflexivity; split; try reflexivity; cbn [balanced_phasors]; split; rewrite <- R.
    + reflexivity.
    + reflexivity.
    + apply cexp_of_same_angle. exists 1%Z. lra.
    + reflexivity.
  - unfold start_voltage, mean_angle_shift, angle_of. cbn [fold_left vmap vmap2 fst snd length]. rewrite !M, !arg_cexp by (unfold t1, t2; lra). intros [H _]. cbn [balanced_phasors] in H. rewrite <- R in H.
    apply (f_equal fst) in H. unfold cexp in H. cbn [fst] in H.
    replace ((0 + (t1 - 2 * PI / 3) + (t2 + 4 * PI / 3)) / INR 2 + 0) with 0 in H by (unfold t1, t2; cbn; lra).
    replace ((0 + t1 + t2) / INR 2 + 0 + - (2 * PI / 3)) with (- PI) in H by (unfold t1, t2; cbn; lra).
    rewrite cos_0, cos_neg, cos_PI in H. lra.
  - unfold start_voltage, mean_angle_shift, angle_of. cbn [fold_left vmap vmap2 fst snd length]. reflexivity.
Qed.
Print Assumptions C66_power_sensor. Print Assumptions C66_voltage_sensor. Print Assumptions C66_current_sensor. Print Assumptions C66_asymmetric_current_refuted. Print Assumptions C66_start_refuted. Print Assumptions C66_current_components. Print Assumptions C66_start_measured.
