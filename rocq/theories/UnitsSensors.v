(** C59, continued: sensors, loading, short circuit results, sources and faults. *)
From Coq Require Import Reals List ZArith Lra Lia.
From Verif Require Import Units UnitsSpec UnitsFacts.
Import ListNotations.
Local Open Scope R_scope.

(** ** Residuals of power sensors: measured minus reported power, in W and var *)
Definition reported_power (cs : symmetry) (t : terminal) (u_rated : R) (u s i : val cs C) : val cs R * val cs R :=
  let a k := let o := appliance_get_output cs k u_rated s i in (a_p o, a_q o) in
  match t with
  | at_load => a load
  | at_shunt => a shunt
  | at_generator => a generator
  | at_source => a source
  | at_branch_side => let o := side_get_output cs u_rated s i in (b_p o, b_q o)
  | at_node => let o := node_get_output cs u_rated u s in (n_p o, n_q o)
  end.
Theorem C59_power_residual :
  forall (ss cs : symmetry) (t : terminal) (u_rated : R) (p q : val ss R) (u s i : val cs C),
  let r := power_residual ss cs t p q s in
  let o := reported_power cs t u_rated u s i in
  fst r = vmap2 Rminus cs (share ss cs p) (fst o) /\ snd r = vmap2 Rminus cs (share ss cs q) (snd o).
Proof.
  intros ss cs t u_rated p q u s i. cbv zeta.
  assert (B3 : base_power_1p = base_power_3p / 3) by reflexivity.
  assert (PB : base_power_3p <> 0) by (unfold base_power_3p; lra).
  destruct ss, cs; cbn [val] in *;
    repeat match goal with x : (_ * _ * _)%type |- _ => destruct x as [[? ?] ?] end;
    destruct t; unfold power_residual, power_difference, s_measured, mean_cval, mean_val, vmap, vmap2, share;
    cbn [reported_power appliance_get_output side_get_output node_get_output a_p a_q b_p b_q n_p n_q vmap fst snd
         convert_direction base_power injection_direction];
    rewrite ?B3; unfold cscale, csub, re, im; cbn [fst snd]; (split; [|]);
    repeat (match goal with |- (_, _) = (_, _) => f_equal end); field; assumption.
Qed.

(** ** Residuals of voltage sensors, in V: a symmetric sensor measures the line voltage, an asymmetric one
    the voltages of the phases *)
Theorem C59_voltage_residual :
  forall (u_rated : R), 0 < u_rated ->
  (forall (um a : R) (u inj : val symmetric C),
     fst (voltage_residual_sym symmetric u_rated um (Some a) u)
       = Rabs um - n_u (node_get_output symmetric u_rated u inj) /\
     fst (voltage_residual_sym symmetric u_rated um None u) = um - n_u (node_get_output symmetric u_rated u inj)) /\
  (forall (um : R) (angle : option R) (u inj : val asymmetric C),
     each2 asymmetric (fun r v => r = um / sqrt 3 - v) (fst (voltage_residual_asym symmetric u_rated um angle u))
       (n_u (node_get_output asymmetric u_rated u inj))) /\
  (forall (um : val asymmetric R) (angle : option (val asymmetric R)) (u inj : val asymmetric C),
     each3 asymmetric (fun r m v => r = m - v) (fst (voltage_residual_asym asymmetric u_rated um angle u))
       um (n_u (node_get_output asymmetric u_rated u inj))) /\
  (forall (um a : val asymmetric R) (u inj : val symmetric C),
     fst (voltage_residual_sym asymmetric u_rated um (Some a) u)
       = sqrt 3 * cabs (positive_sequence um a) - n_u (node_get_output symmetric u_rated u inj) /\
     fst (voltage_residual_sym asymmetric u_rated um None u)
       = sqrt 3 * (let '(x, y, z) := um in (x + y + z) / 3) - n_u (node_get_output symmetric u_rated u inj)).
Proof.
  intros u_rated U. pose proof sqrt3_pos as S3. pose proof sqrt3_sq as Q3.
  split; [|split; [|split]].
  - intros um a u inj. split.
    + cbn. unfold polar.
      replace (cabs (cscale (um * (1 / (u_rated * 1))) (cexp a))) with (Rabs um / u_rated).
      { field. lra. }
      symmetry. apply cabs_unique.
      { apply Rmult_le_pos; [apply Rabs_pos|left; apply Rinv_0_lt_compat; lra]. }
      transitivity (um / u_rated * (um / u_rated)).
      { unfold Rabs; destruct (Rcase_abs um); field; lra. }
      unfold norm2, cscale, cexp, re, im; cbn [fst snd].
      pose proof (sin2_cos2 a) as SC. unfold Rsqr in SC.
      transitivity (um / u_rated * (um / u_rated) * (sin a * sin a + cos a * cos a)); [rewrite SC; ring|field; lra].
    + cbn. field. lra.
  - intros um angle [[u1 u2] u3] inj. cbn. repeat split; field; lra.
  - intros [[m1 m2] m3] angle [[u1 u2] u3] inj. cbn. repeat split; field; lra.
  - intros [[m1 m2] m3] [[x1 x2] x3] u inj. split.
    + cbn -[pos_seq]. set (k := 1 / (u_rated * / sqrt 3)).
      assert (K : k = sqrt 3 / u_rated) by (unfold k; field; lra).
      assert (KP : 0 <= k). { rewrite K. left. apply Rdiv_lt_0_compat; lra. }
      replace (pos_seq asymmetric (polar (m1 * k) x1, polar (m2 * k) x2, polar (m3 * k) x3))
        with (cscale k (positive_sequence (m1, m2, m3) (x1, x2, x3))).
      * rewrite cabs_scale by exact KP. rewrite K. cbn. field. lra.
      * cbn [pos_seq positive_sequence fst snd]. rewrite a1_cexp, a2_cexp.
        unfold polar. rewrite !cmul_polar. unfold cadd, cscale, cexp, re, im; cbn [fst snd].
        replace (x3 + - (2 * PI / 3)) with (x3 - 2 * PI / 3) by ring.
        f_equal; field.
    + cbn. field. lra.
Qed.

(** the residual of the angle is the measured minus the reported angle up to full turns, within half a
    turn, for sensors of the symmetry of the calculation, and for the positive sequence in a symmetric
    calculation.  Missing, because false: symmetric sensors in an asymmetric calculation. *)
Theorem C59_voltage_angle_residual_partial :
  forall (u_rated : R), 0 < u_rated ->
  (forall (um a : R) (u inj : val symmetric C), 0 < um ->
     exists r, snd (voltage_residual_sym symmetric u_rated um (Some a) u) = Some r /\ - PI <= r <= PI /\
       same_angle r (a - n_u_angle (node_get_output symmetric u_rated u inj))) /\
  (forall (um a : val asymmetric R) (u inj : val asymmetric C),
     exists r, snd (voltage_residual_asym asymmetric u_rated um (Some a) u) = Some r /\
       each asymmetric (fun r => - PI <= r <= PI) r /\
       each3 asymmetric (fun r a t => same_angle r (a - t)) r a (n_u_angle (node_get_output asymmetric u_rated u inj))) /\
  (forall (um a : val asymmetric R) (u inj : val symmetric C), positive_sequence um a <> (0, 0) ->
     exists r, snd (voltage_residual_sym asymmetric u_rated um (Some a) u) = Some r /\ - PI <= r <= PI /\
       same_angle r (arg (positive_sequence um a) - n_u_angle (node_get_output symmetric u_rated u inj))).
Proof.
  intros u_rated U. pose proof sqrt3_pos as S3. split; [|split].
  - intros um a u inj M. cbn. eexists. split; [reflexivity|]. split; [apply phase_mod_range|].
    eapply same_angle_trans; [apply phase_mod_same|]. apply same_angle_minus; [|apply same_angle_refl].
    apply arg_polar_angle. apply Rmult_lt_0_compat; [lra|]. apply Rdiv_lt_0_compat; lra.
  - intros [[m1 m2] m3] [[x1 x2] x3] [[u1 u2] u3] inj. cbn. eexists. split; [reflexivity|]. cbn.
    split; [split; [|split]; apply phase_mod_range|split; [|split]; apply phase_mod_same].
  - intros [[m1 m2] m3] [[x1 x2] x3] u inj N.
    cbn -[pos_seq positive_sequence]. set (k := 1 / (u_rated * / sqrt 3)).
    assert (K : k = sqrt 3 / u_rated) by (unfold k; field; lra).
    assert (KP : 0 < k). { rewrite K. apply Rdiv_lt_0_compat; lra. }
    replace (pos_seq asymmetric (polar (m1 * k) x1, polar (m2 * k) x2, polar (m3 * k) x3))
      with (cscale k (positive_sequence (m1, m2, m3) (x1, x2, x3))).
    + eexists. split; [reflexivity|]. split; [apply phase_mod_range|].
      eapply same_angle_trans; [apply phase_mod_same|]. apply same_angle_minus; [|apply same_angle_refl].
      set (ps := positive_sequence _ _) in *.
      apply (arg_zero_angle (k * cabs ps)). { apply Rmult_lt_0_compat; [lra|apply cabs_pos, N]. }
      rewrite (arg_polar ps N) at 1. unfold cscale, re, im; cbn [fst snd]. f_equal; ring.
    + cbn [pos_seq positive_sequence fst snd]. rewrite a1_cexp, a2_cexp.
      unfold polar. rewrite !cmul_polar. unfold cadd, cscale, cexp, re, im; cbn [fst snd].
      replace (x3 + - (2 * PI / 3)) with (x3 - 2 * PI / 3) by ring.
      f_equal; field.
Qed.

Lemma third_turn_not_full k : IZR k * (2 * PI) <> 2 * PI / 3.
Proof.
  intro E. pose proof PI_RGT_0 as P.
  assert (F : IZR (3 * k) = IZR 1).
  { rewrite mult_IZR. apply (Rmult_eq_reg_r (2 * PI)); [|lra]. lra. }
  apply eq_IZR in F. lia.
Qed.

(** A symmetric sensor that measures exactly what an asymmetric estimation finds, at any balanced
    voltage, gets angle residuals of 120 degrees in phases b and c. *)
Theorem C59_symmetric_voltage_angle_residual_refuted :
  forall (u_rated um : R) (u : C) (ub uc : C) (inj : val asymmetric C), 0 < u_rated -> u <> (0, 0) ->
  balanced_phasors (u, ub, uc) ->
  um = sqrt 3 * fst (fst (n_u (node_get_output asymmetric u_rated (u, ub, uc) inj))) ->
  exists ra rb rc, snd (voltage_residual_asym symmetric u_rated um (Some (arg u)) (u, ub, uc)) = Some (ra, rb, rc) /\
    fst (voltage_residual_asym symmetric u_rated um (Some (arg u)) (u, ub, uc)) = (0, 0, 0) /\
    same_angle ra 0 /\ same_angle rb (2 * PI / 3) /\ same_angle rc (- (2 * PI / 3)) /\
    ~ same_angle rb 0 /\ ~ same_angle rc 0.
Proof.
  intros u_rated um u ub uc inj U N [-> ->] M. pose proof sqrt3_pos as S3.
  assert (AB : same_angle (arg u - arg (cmul u (cexp (- (2 * PI / 3))))) (2 * PI / 3)).
  { eapply same_angle_trans; [apply same_angle_minus; [apply same_angle_refl|apply arg_rotate, N]|].
    replace (arg u - (arg u + - (2 * PI / 3))) with (2 * PI / 3) by ring. apply same_angle_refl. }
  assert (AC : same_angle (arg u - arg (cmul u (cexp (2 * PI / 3)))) (- (2 * PI / 3))).
  { eapply same_angle_trans; [apply same_angle_minus; [apply same_angle_refl|apply arg_rotate, N]|].
    replace (arg u - (arg u + 2 * PI / 3)) with (- (2 * PI / 3)) by ring. apply same_angle_refl. }
  cbn in M. cbn. do 3 eexists. split; [reflexivity|].
  pose proof (same_angle_trans _ _ _ (phase_mod_same _) AB) as RB.
  pose proof (same_angle_trans _ _ _ (phase_mod_same _) AC) as RC.
  split; [|split; [|split; [exact RB|split; [exact RC|split]]]].
  - rewrite !cabs_mul, !cabs_cexp, M. f_equal; [f_equal|]; field; lra.
  - eapply same_angle_trans; [apply phase_mod_same|]. replace (arg u - arg u) with 0 by ring. apply same_angle_refl.
  - intro Z. destruct (same_angle_trans _ _ _ (same_angle_sym _ _ RB) Z) as [k K].
    apply (third_turn_not_full k). lra.
  - intro Z. destruct (same_angle_trans _ _ _ (same_angle_sym _ _ RC) Z) as [k K].
    apply (third_turn_not_full (- k)). rewrite opp_IZR. lra.
Qed.

(** ** Residuals of current sensors, in A.  Partial: for sensors of the symmetry of the calculation; for
    the others see the theorems below. *)
Theorem C59_current_residual_partial :
  forall (cs : symmetry) (t : angle_type) (u_rated : R) (m a : val cs R) (i u s : val cs C), 0 < u_rated ->
  each cs (fun m => 0 < m) m -> each cs (fun i => i <> (0, 0)) i ->
  let r := current_residual cs cs t u_rated m a i u in
  each3 cs (fun r m o => r = m - o) (fst r) m (b_i (side_get_output cs u_rated s i)) /\
  each cs (fun r => - PI <= r <= PI) (snd r) /\
  each3 cs (fun r a d => same_angle r (a - d)) (snd r) a
    (match t with
     | global_angle => vmap arg cs i
     | local_angle => vmap2 Rminus cs (vmap arg cs u) (vmap arg cs i)
     end).
Proof.
  intros cs t u_rated m a i u s U. pose proof (base_i_pos u_rated U) as BI.
  assert (MP : forall m, 0 < m -> 0 < m * (1 / base_i u_rated)).
  { intros x X. apply Rmult_lt_0_compat; [lra|]. apply Rdiv_lt_0_compat; lra. }
  assert (L : forall t i u, cabs (local_current t i u) = cabs i).
  { intros t' i' u'. destruct t'; [|reflexivity]. cbn. change (cos (arg u'), sin (arg u')) with (cexp (arg u')).
    rewrite cabs_mul, cabs_conj, cabs_cexp. ring. }
  assert (R1 : forall m a t i u, 0 < m ->
     (cabs (polar (m * (1 / base_i u_rated)) a) - cabs (local_current t i u)) * base_i u_rated
       = m - base_i u_rated * cabs i).
  { intros x y t' i' u' X. unfold polar. rewrite cabs_scale, cabs_cexp, L by (left; apply MP, X). field. lra. }
  assert (R2 : forall m a t i u, 0 < m -> i <> (0, 0) ->
     same_angle (phase_mod_2pi (arg (polar (m * (1 / base_i u_rated)) a) - arg (local_current t i u)))
       (a - match t with global_angle => arg i | local_angle => arg u - arg i end)).
  { intros x y t' i' u' X I. eapply same_angle_trans; [apply phase_mod_same|]. apply same_angle_minus.
    - apply arg_polar_angle, MP, X.
    - destruct t'; cbn; [|apply same_angle_refl]. apply arg_conj_rotate, I. }
  unfold current_residual, current_calc_value. rewrite base_current_eq by assumption.
  destruct cs; cbn.
  - intros M I. split; [|split].
    + apply R1, M.
    + apply phase_mod_range.
    + destruct t; [apply (R2 _ _ local_angle i u M I)|apply (R2 _ _ global_angle i u M I)].
  - destruct m as [[m1 m2] m3], a as [[x1 x2] x3], i as [[i1 i2] i3], u as [[u1 u2] u3]. cbn.
    intros (M1 & M2 & M3) (I1 & I2 & I3). split; [|split].
    + auto.
    + split; [|split]; apply phase_mod_range.
    + destruct t; cbn; (split; [|split]).
      * exact (R2 m1 x1 local_angle i1 u1 M1 I1).
      * exact (R2 m2 x2 local_angle i2 u2 M2 I2).
      * exact (R2 m3 x3 local_angle i3 u3 M3 I3).
      * exact (R2 m1 x1 global_angle i1 u1 M1 I1).
      * exact (R2 m2 x2 global_angle i2 u2 M2 I2).
      * exact (R2 m3 x3 global_angle i3 u3 M3 I3).
Qed.

(** A symmetric sensor with a global angle stands for balanced currents in an asymmetric calculation, and
    an asymmetric one for their positive sequence in a symmetric calculation. *)
Theorem C59_global_current_other_symmetry :
  forall (u_rated : R), 0 < u_rated ->
  (forall m a : R, 0 < m ->
     balanced_phasors (current_calc_value symmetric asymmetric u_rated m a) /\
     each asymmetric (fun z => base_i u_rated * cabs z = m) (current_calc_value symmetric asymmetric u_rated m a)) /\
  (forall m a : val asymmetric R,
     cscale (base_i u_rated) (current_calc_value asymmetric symmetric u_rated m a) = positive_sequence m a).
Proof.
  intros u_rated U. pose proof (base_i_pos u_rated U) as BI. unfold current_calc_value.
  rewrite base_current_eq by assumption. split.
  - intros m a M. cbn. rewrite a1_cexp, a2_cexp. split; [split; reflexivity|].
    assert (MP : 0 <= m * (1 / base_i u_rated)).
    { apply Rmult_le_pos; [lra|]. left. apply Rdiv_lt_0_compat; lra. }
    unfold polar. rewrite !cmul_polar, !cabs_scale, !cabs_cexp by exact MP. repeat split; field; lra.
  - intros [[m1 m2] m3] [[x1 x2] x3]. cbn [vmap vmap2 fst snd pos_seq positive_sequence].
    rewrite a1_cexp, a2_cexp. unfold polar. rewrite !cmul_polar. unfold cadd, cscale, cexp, re, im; cbn [fst snd].
    replace (x3 + - (2 * PI / 3)) with (x3 - 2 * PI / 3) by ring. f_equal; field; lra.
Qed.

(** With local angles this is wrong: between balanced voltages and currents the angle is the same in
    every phase, but the angle of a symmetric sensor is turned by 120 degrees from phase to phase, so an
    exact measurement has residuals of 120 degrees in phases b and c ... *)
Theorem C59_symmetric_local_current_refuted :
  forall (u_rated m : R) (u ub uc i ib ic : C) (s : val asymmetric C), 0 < u_rated -> i <> (0, 0) -> u <> (0, 0) ->
  balanced_phasors (u, ub, uc) -> balanced_phasors (i, ib, ic) ->
  m = fst (fst (b_i (side_get_output asymmetric u_rated s (i, ib, ic)))) ->
  exists ra rb rc,
    current_residual symmetric asymmetric local_angle u_rated m (arg u - arg i) (i, ib, ic) (u, ub, uc)
      = ((0, 0, 0), (ra, rb, rc)) /\
    same_angle (arg ub - arg ib) (arg u - arg i) /\ same_angle (arg uc - arg ic) (arg u - arg i) /\
    same_angle ra 0 /\ same_angle rb (- (2 * PI / 3)) /\ same_angle rc (2 * PI / 3) /\
    ~ same_angle rb 0 /\ ~ same_angle rc 0.
Proof.
  intros u_rated m u ub uc i ib ic s U I V [-> ->] [-> ->] M. pose proof (base_i_pos u_rated U) as BI.
  cbn in M. unfold current_residual, current_calc_value. rewrite base_current_eq by assumption.
  pose proof (cabs_pos i I) as CI.
  assert (MP : m * (1 / base_i u_rated) = cabs i) by (rewrite M; field; lra).
  cbn. rewrite MP.
  set (dl := arg u - arg i).
  assert (ANG : forall t, same_angle (arg (cmul u (cexp t)) - arg (cmul i (cexp t))) dl).
  { intro t. eapply same_angle_trans; [apply same_angle_minus; apply arg_rotate; assumption|].
    replace (arg u + t - (arg i + t)) with dl by (unfold dl; ring). apply same_angle_refl. }
  assert (NZ : forall t, cmul i (cexp t) <> (0, 0)).
  { intros t E. assert (Z : cabs (cmul i (cexp t)) = cabs i) by (rewrite cabs_mul, cabs_cexp; ring).
    rewrite E in Z. assert (cabs (0, 0) = 0) by (apply cabs_unique; [lra|unfold norm2; simpl; ring]). lra. }
  assert (LOC : forall t, same_angle (arg (cmul (conj (cmul i (cexp t))) (cos (arg (cmul u (cexp t))), sin (arg (cmul u (cexp t)))))) dl).
  { intro t. eapply same_angle_trans; [apply (arg_conj_rotate _ (arg (cmul u (cexp t))) (NZ t))|apply ANG]. }
  assert (LOC0 : same_angle (arg (cmul (conj i) (cos (arg u), sin (arg u)))) dl).
  { apply (arg_conj_rotate i (arg u) I). }
  assert (CL : forall z w, cabs (cmul (conj z) (cos w, sin w)) = cabs z).
  { intros z w. change (cos w, sin w) with (cexp w). rewrite cabs_mul, cabs_conj, cabs_cexp. ring. }
  rewrite a1_cexp, a2_cexp. unfold polar. rewrite !cmul_polar.
  do 3 eexists. split.
  { f_equal. rewrite !CL, !cabs_mul, !cabs_cexp, !cabs_scale, !cabs_cexp by lra. f_equal; [f_equal|]; ring. }
  assert (RES : forall x y t, same_angle x (dl + t) -> same_angle y dl -> same_angle (phase_mod_2pi (x - y)) t).
  { intros x y t X Y. eapply same_angle_trans; [apply phase_mod_same|].
    eapply same_angle_trans; [apply (same_angle_minus _ _ _ _ X Y)|].
    replace (dl + t - dl) with t by ring. apply same_angle_refl. }
  assert (RA : same_angle (phase_mod_2pi (arg (cscale (cabs i) (cexp dl)) - arg (cmul (conj i) (cos (arg u), sin (arg u))))) 0).
  { apply RES; [|exact LOC0]. replace (dl + 0) with dl by ring. apply arg_polar_angle, CI. }
  pose proof (RES _ _ _ (arg_polar_angle _ (dl + - (2 * PI / 3)) CI) (LOC (- (2 * PI / 3)))) as RB.
  pose proof (RES _ _ _ (arg_polar_angle _ (dl + 2 * PI / 3) CI) (LOC (2 * PI / 3))) as RC.
  split; [apply ANG|split; [apply ANG|split; [exact RA|split; [exact RB|split; [exact RC|split]]]]].
  - intro Z. destruct (same_angle_trans _ _ _ (same_angle_sym _ _ RB) Z) as [k K].
    apply (third_turn_not_full (- k)). rewrite opp_IZR. lra.
  - intro Z. destruct (same_angle_trans _ _ _ (same_angle_sym _ _ RC) Z) as [k K].
    apply (third_turn_not_full k). lra.
Qed.

(** ... and an asymmetric sensor that measures the same current and local angle in every phase counts
    as a measured current of zero in a symmetric calculation. *)
Theorem C59_asymmetric_local_current_refuted :
  forall (u_rated m a : R) (i u s : val symmetric C), 0 < u_rated ->
  m = b_i (side_get_output symmetric u_rated s i) ->
  current_calc_value asymmetric symmetric u_rated (m, m, m) (a, a, a) = (0, 0) /\
  fst (current_residual asymmetric symmetric local_angle u_rated (m, m, m) (a, a, a) i u) = - m.
Proof.
  intros u_rated m a i u s U M. pose proof (base_i_pos u_rated U) as BI.
  assert (Z : current_calc_value asymmetric symmetric u_rated (m, m, m) (a, a, a) = (0, 0)).
  { unfold current_calc_value. rewrite base_current_eq by assumption. cbn. unfold polar, a1, a2, cadd, cscale, cmul, cexp, re, im; cbn [fst snd].
    f_equal; field; lra. }
  split; [exact Z|]. unfold current_residual. rewrite Z. cbn.
  change (cos (arg u), sin (arg u)) with (cexp (arg u)). rewrite cabs_mul, cabs_conj, cabs_cexp, base_current_eq by assumption.
  assert (E : cabs (0, 0) = 0) by (apply cabs_unique; [lra|unfold norm2; simpl; ring]).
  rewrite E, M. cbn. ring.
Qed.

(** ** Weights: the variance of the mean of the three measured powers is three times too large *)
Theorem C59_variance_of_mean_refuted :
  forall (apparent : R) (sg : val asymmetric R),
  (let '(a, b, c) := sg in 0 < a * a + b * b + c * c) ->
  power_variance asymmetric symmetric apparent (Some sg)
    = 3 * variance_of_mean (power_variance asymmetric asymmetric apparent (Some sg)) /\
  power_variance asymmetric symmetric apparent (Some sg)
    <> variance_of_mean (power_variance asymmetric asymmetric apparent (Some sg)).
Proof.
  intros apparent [[a b] c] P. cbn. unfold base_power_1p, base_power_3p. split; [field|].
  intro E. assert (a * a + b * b + c * c = 0) by lra. lra.
Qed.

(** ** Loading is at most 1 exactly when nothing exceeds its rating *)
Lemma div_le_1 x n : 0 < n -> x / n <= 1 <-> x <= n.
Proof.
  intro N. split; intro H.
  - apply (Rmult_le_compat_r n) in H; [|lra]. unfold Rdiv in H. rewrite Rmult_assoc, Rinv_l in H by lra. lra.
  - apply (Rmult_le_reg_r n); [lra|]. unfold Rdiv. rewrite Rmult_assoc, Rinv_l by lra. lra.
Qed.
Lemma Rmax_le a b c : Rmax a b <= c <-> a <= c /\ b <= c.
Proof.
  split.
  - intro H. pose proof (Rmax_l a b). pose proof (Rmax_r a b). lra.
  - intros [A B]. apply Rmax_lub; assumption.
Qed.
Theorem C59_branch_loading :
  forall (y : symmetry) (r : branch_rating) (u1 u2 : R) (sf i_f st i_t : val y C),
  let o := branch_get_output y r u1 u2 sf i_f st i_t in
  match r with
  | rated_current i_n => 0 < i_n ->
      (br_loading o <= 1 <->
       each y (fun i => i <= i_n) (b_i (br_from o)) /\ each y (fun i => i <= i_n) (b_i (br_to o)))
  | rated_power (Some sn) => 0 < sn ->
      (br_loading o <= 1 <->
       share y symmetric (b_s (br_from o)) <= sn /\ share y symmetric (b_s (br_to o)) <= sn)
  | _ => br_loading o = 0
  end.
Proof.
  intros y r u1 u2 sf i_f st i_t. cbv zeta. unfold branch_get_output. cbn [br_loading br_from br_to].
  set (f := side_get_output y u1 sf i_f). set (t := side_get_output y u2 st i_t). clearbody f t.
  destruct r as [i_n| |[sn|]]; cbn [loading]; try reflexivity; intro N; rewrite div_le_1, Rmax_le by assumption.
  - assert (E : forall x : val y R, max_val y x <= i_n <-> each y (fun i => i <= i_n) x).
    { destruct y; cbn; [tauto|]. intros [[a b] c]. cbn. rewrite !Rmax_le. tauto. }
    rewrite !E. tauto.
  - assert (E : forall x : val y R, sum_val y x = share y symmetric x).
    { destruct y; cbn; [reflexivity|]. intros [[a b] c]. reflexivity. }
    rewrite !E. tauto.
Qed.
Theorem C59_branch3_loading :
  forall (y : symmetry) (sn1 sn2 sn3 u1 u2 u3 : R) (s1 i1 s2 i2 s3 i3 : val y C),
  0 < sn1 -> 0 < sn2 -> 0 < sn3 ->
  let o := branch3_get_output y sn1 sn2 sn3 u1 u2 u3 s1 i1 s2 i2 s3 i3 in
  (b3_loading o <= 1 <-> b3_loading_1 o <= 1 /\ b3_loading_2 o <= 1 /\ b3_loading_3 o <= 1) /\
  (b3_loading_1 o <= 1 <-> share y symmetric (b_s (b3_1 o)) <= sn1) /\
  (b3_loading_2 o <= 1 <-> share y symmetric (b_s (b3_2 o)) <= sn2) /\
  (b3_loading_3 o <= 1 <-> share y symmetric (b_s (b3_3 o)) <= sn3) /\
  b3_1 o = side_get_output y u1 s1 i1 /\ b3_2 o = side_get_output y u2 s2 i2 /\ b3_3 o = side_get_output y u3 s3 i3.
Proof.
  intros y sn1 sn2 sn3 u1 u2 u3 s1 i1 s2 i2 s3 i3 N1 N2 N3. cbv zeta. unfold branch3_get_output.
  cbn [b3_loading b3_loading_1 b3_loading_2 b3_loading_3 b3_1 b3_2 b3_3].
  assert (E : forall x : val y R, sum_val y x = share y symmetric x).
  { destruct y; cbn; [reflexivity|]. intros [[a b] c]. reflexivity. }
  rewrite !E, !Rmax_le, !div_le_1 by assumption. split; [tauto|]. split; [tauto|]. split; [tauto|]. split; [tauto|].
  split; [|split]; reflexivity.
Qed.

(** ** Short circuits: the results of a symmetric calculation are balanced; voltages and currents are in
    V (of a phase) and A; currents of loads and shunts are reported in the direction of consumption *)
Theorem C59_short_circuit_symmetric_results :
  forall (u_rated : R) (k : appliance) (u i : val symmetric C), 0 < u_rated -> u <> (0, 0) -> i <> (0, 0) ->
  let n := node_get_sc_output symmetric u_rated u in
  let o := get_sc_output symmetric (injection_direction k) u_rated i in
  balanced (nsc_u n) (nsc_u_angle n) /\ balanced (sc_i o) (sc_i_angle o) /\
  sqrt 3 * fst (fst (nsc_u n)) = n_u (node_get_output symmetric u_rated u u) /\
  fst (fst (sc_i o)) = a_i (appliance_get_output symmetric k u_rated u i) /\
  same_angle (fst (fst (sc_i_angle o))) (arg i + match k with generator | source => 0 | load | shunt => PI end).
Proof.
  intros u_rated k u i U V I. cbv zeta. pose proof sqrt3_pos as S3.
  assert (NI : cscale (injection_direction k) i <> (0, 0)).
  { intro E. apply I. destruct i as [x y]. unfold cscale, re, im in E; cbn [fst snd] in E. injection E; intros E2 E1.
    destruct k; cbn in *; f_equal; lra. }
  assert (SW : forall d z w, cscale d (cmul z w) = cmul (cscale d z) w)
    by (intros; unfold cscale, cmul, re, im; cbn [fst snd]; f_equal; ring).
  cbn. rewrite a1_cexp, a2_cexp. rewrite !SW. rewrite !cabs_mul, !cabs_cexp.
  repeat split; try (field; lra); try ring.
  - apply (arg_rotate u (- (2 * PI / 3)) V).
  - apply (arg_rotate u (2 * PI / 3) V).
  - apply (arg_rotate _ (- (2 * PI / 3)) NI).
  - apply (arg_rotate _ (2 * PI / 3) NI).
  - assert (T : forall t, cexp t = (1, 0) -> same_angle (arg (cscale 1 i)) (arg i + t)).
    { intros t E. replace (cscale 1 i) with (cmul i (cexp t)).
      - apply arg_rotate, I.
      - rewrite E. destruct i; unfold cmul, cscale, re, im; cbn [fst snd]. f_equal; ring. }
    assert (T' : same_angle (arg (cscale (-1) i)) (arg i + PI)).
    { replace (cscale (-1) i) with (cmul i (cexp PI)).
      - apply arg_rotate, I.
      - unfold cexp. rewrite cos_PI, sin_PI. destruct i; unfold cmul, cscale, re, im; cbn [fst snd]. f_equal; ring. }
    destruct k; cbn; [apply T|exact T'|apply T|exact T']; unfold cexp; rewrite cos_0, sin_0; reflexivity.
Qed.

(** ** Sources: a short circuit at the source at rated voltage takes the short circuit power sk (VA), and
    the impedance has the given ratios R/X and Z0/Z1 *)
Theorem C59_source_short_circuit_power :
  forall (u_rated sk rx z01 : R), 0 < u_rated -> 0 < sk -> 0 < z01 ->
  let i := cmul (source_y1 sk rx) (source_u_ref 1 0) in
  let o := appliance_get_output symmetric source u_rated (0, 0) i in
  sqrt 3 * u_rated * a_i o = sk /\
  re (cinv (source_y1 sk rx)) = rx * im (cinv (source_y1 sk rx)) /\ 0 < im (cinv (source_y1 sk rx)) /\
  cinv (source_y0 sk rx z01) = cscale z01 (cinv (source_y1 sk rx)).
Proof.
  intros u_rated sk rx z01 U K Z. pose proof sqrt3_pos as S3.
  assert (SP : 0 < sqrt (rx * rx + 1)) by (apply sqrt_lt_R0; nra).
  assert (SS : sqrt (rx * rx + 1) * sqrt (rx * rx + 1) = rx * rx + 1) by (apply sqrt_sqrt; nra).
  assert (BP : 0 < base_power_3p) by (unfold base_power_3p; lra).
  set (x1 := base_power_3p / sk / sqrt (rx * rx + 1)).
  assert (XP : 0 < x1) by (unfold x1; apply Rdiv_lt_0_compat; [apply Rdiv_lt_0_compat|]; lra).
  assert (ZE : source_z1 sk rx = (x1 * rx, x1)) by reflexivity.
  assert (NZ : source_z1 sk rx <> (0, 0)) by (rewrite ZE; intro E; injection E; intros; lra).
  assert (ZA : cabs (source_z1 sk rx) = base_power_3p / sk).
  { apply cabs_unique. { left; apply Rdiv_lt_0_compat; lra. }
    rewrite ZE. unfold norm2, re, im; cbn [fst snd].
    replace (x1 * rx * (x1 * rx) + x1 * x1) with (x1 * x1 * (rx * rx + 1)) by ring.
    rewrite <- SS. unfold x1. field. lra. }
  assert (II : forall z, z <> (0, 0) -> cinv (cinv z) = z).
  { intros [x y] N. pose proof (norm2_pos _ N) as P. unfold norm2, re, im in P; cbn [fst snd] in P.
    unfold cinv, norm2, re, im; cbn [fst snd].
    replace (x / (x * x + y * y) * (x / (x * x + y * y)) + - y / (x * x + y * y) * (- y / (x * x + y * y)))
      with (/ (x * x + y * y)) by (field; lra).
    f_equal; field; lra. }
  cbv zeta. split; [|split; [|split]].
  - cbn. rewrite cabs_mul. unfold source_y1. rewrite cabs_inv, ZA by assumption.
    unfold source_u_ref. rewrite cabs_scale, cabs_cexp by lra. unfold base_i. field. repeat split; lra.
  - unfold source_y1. rewrite II, ZE by assumption. cbn. ring.
  - unfold source_y1. rewrite II, ZE by assumption. cbn. exact XP.
  - unfold source_y0, source_y1. rewrite II by assumption.
    pose proof (norm2_pos _ NZ) as P. rewrite ZE in *. unfold norm2, re, im in P; cbn [fst snd] in P.
    unfold cinv, cscale, norm2, re, im; cbn [fst snd].
    set (w := x1 * rx) in *.
    replace (/ z01 * (w / (w * w + x1 * x1)) * (/ z01 * (w / (w * w + x1 * x1))) +
             / z01 * (- x1 / (w * w + x1 * x1)) * (/ z01 * (- x1 / (w * w + x1 * x1))))
      with (/ (z01 * z01 * (w * w + x1 * x1))) by (field; lra).
    f_equal; field; lra.
Qed.
(** the voltage behind the impedance of a source in a short circuit: IEC 60909 *)
Theorem C59_source_voltage_factor :
  forall u_rated : R,
  c_factor u_rated scaling_maximum = 11 / 10 /\
  (u_rated <= 1000 -> c_factor u_rated scaling_minimum = 95 / 100) /\
  (1000 < u_rated -> c_factor u_rated scaling_minimum = 1).
Proof.
  intro u. cbn. destruct (Rle_dec u 1000); repeat split; intros; try reflexivity; lra.
Qed.

(** ** Faults: the current through a fault impedance (ohm) is the phase voltage (V) over the impedance *)
Theorem C59_fault_impedance :
  forall (u_rated r x : R) (u : val asymmetric C), 0 < u_rated -> (r, x) <> (0, 0) ->
  let i := vmap (cmul (fault_y u_rated r x)) asymmetric u in
  each2 asymmetric (fun i v => i * sqrt (r * r + x * x) = v)
    (sc_i (get_sc_output asymmetric 1 u_rated i)) (nsc_u (node_get_sc_output asymmetric u_rated u)).
Proof.
  intros u_rated r x u U N. cbv zeta. pose proof sqrt3_pos as S3. pose proof sqrt3_sq as Q3.
  assert (BP : 0 < base_power_3p) by (unfold base_power_3p; lra).
  change (sqrt (r * r + x * x)) with (cabs (r, x)). pose proof (cabs_pos _ N) as P.
  assert (K : forall w, base_i u_rated * cabs (cmul (fault_y u_rated r x) w) * cabs (r, x) = / sqrt 3 * u_rated * cabs w).
  { intro w. rewrite cabs_mul. unfold fault_y. rewrite cabs_scale, cabs_inv by
      (assumption || (left; apply Rdiv_lt_0_compat; nra)).
    unfold base_i. field. repeat split; lra. }
  destruct u as [[u1 u2] u3]. cbn. repeat split; apply K.
Qed.

(** ** Concrete cases *)
Lemma unit_nonzero : ((1, 0) : C) <> (0, 0).
Proof. intro E. injection E. lra. Qed.
Lemma cabs_unit : cabs (1, 0) = 1.
Proof. apply cabs_unique; [lra|unfold norm2; simpl; ring]. Qed.
(** a symmetric sensor of 3 MW at a load that takes 2.5 MW *)
Example C59_power_residual_example :
  fst (power_residual symmetric symmetric at_load 3000000 0 (- (5 / 2), 0)) = 500000.
Proof. cbn. unfold cscale, csub, re, im; cbn [fst snd]. unfold base_power_3p. field. Qed.
(** phases of 230 V, 120 degrees apart, have a positive sequence *)
Example C59_voltage_angle_example : positive_sequence (230, 230, 230) (0, - (2 * PI / 3), 2 * PI / 3) <> (0, 0).
Proof.
  cbn. replace (- (2 * PI / 3) + 2 * PI / 3) with 0 by ring. replace (2 * PI / 3 - 2 * PI / 3) with 0 by ring.
  rewrite cos_0, sin_0. intro E. injection E; intros _ E1. lra.
Qed.
(** the cases of the refutations: balanced voltages and currents at 10 kV *)
Example C59_balanced_example :
  balanced_phasors ((1, 0), cmul (1, 0) (cexp (- (2 * PI / 3))), cmul (1, 0) (cexp (2 * PI / 3))) /\
  exists ra rb rc,
    snd (voltage_residual_asym symmetric 10000 10000 (Some (arg (1, 0)))
           ((1, 0), cmul (1, 0) (cexp (- (2 * PI / 3))), cmul (1, 0) (cexp (2 * PI / 3)))) = Some (ra, rb, rc) /\
    ~ same_angle rb 0.
Proof.
  split; [split; reflexivity|].
  destruct (C59_symmetric_voltage_angle_residual_refuted 10000 10000 (1, 0) (cmul (1, 0) (cexp (- (2 * PI / 3))))
     (cmul (1, 0) (cexp (2 * PI / 3))) ((0, 0), (0, 0), (0, 0))) as (ra & rb & rc & E & _ & _ & _ & _ & N & _).
  - lra.
  - exact unit_nonzero.
  - split; reflexivity.
  - cbn. rewrite cabs_unit. pose proof sqrt3_pos. field. lra.
  - exists ra, rb, rc. split; assumption.
Qed.
Example C59_variance_example : let '(a, b, c) := (1, 2, 3) in 0 < a * a + b * b + c * c.
Proof. lra. Qed.
Example C59_loading_example :
  br_loading (branch_get_output symmetric (rated_power (Some 1000000)) 10000 400 (1, 0) (1, 0) (-1, 0) (-1, 0)) <= 1.
Proof.
  apply (C59_branch_loading symmetric (rated_power (Some 1000000)) 10000 400 (1, 0) (1, 0) (-1, 0) (-1, 0)); [lra|].
  cbn. rewrite cabs_unit. replace (cabs (-1, 0)) with 1 by (symmetry; apply cabs_unique; [lra|unfold norm2; simpl; ring]).
  unfold base_power_3p. lra.
Qed.
Example C59_fault_example : 0 < 10000 /\ ((1 / 10, 1 / 10) : C) <> (0, 0).
Proof. split; [lra|]. intro E. injection E. lra. Qed.

Print Assumptions C59_power_residual.
Print Assumptions C59_voltage_residual.
Print Assumptions C59_voltage_angle_residual_partial.
Print Assumptions C59_symmetric_voltage_angle_residual_refuted.
Print Assumptions C59_current_residual_partial.
Print Assumptions C59_global_current_other_symmetry.
Print Assumptions C59_symmetric_local_current_refuted.
Print Assumptions C59_asymmetric_local_current_refuted.
Print Assumptions C59_variance_of_mean_refuted.
Print Assumptions C59_branch_loading.
Print Assumptions C59_branch3_loading.
Print Assumptions C59_short_circuit_symmetric_results.
Print Assumptions C59_source_short_circuit_power.
Print Assumptions C59_source_voltage_factor.
Print Assumptions C59_fault_impedance.
