(** Facts about complex numbers and per-unit values for UnitsProps.v. *)
From Coq Require Import Reals List ZArith Lra Lia.
From Verif Require Import Units UnitsSpec.
Import ListNotations.
Local Open Scope R_scope.

Lemma sqrt3_sq : sqrt 3 * sqrt 3 = 3. Proof. apply sqrt_sqrt; lra. Qed.
Lemma sqrt3_pos : 0 < sqrt 3. Proof. apply sqrt_lt_R0; lra. Qed.

Lemma norm2_nonneg z : 0 <= norm2 z.
Proof. unfold norm2; nra. Qed.
Lemma cabs_nonneg z : 0 <= cabs z. Proof. apply sqrt_pos. Qed.
Lemma cabs_sq z : cabs z * cabs z = norm2 z. Proof. apply sqrt_sqrt, norm2_nonneg. Qed.
Lemma norm2_pos z : z <> (0, 0) -> 0 < norm2 z.
Proof.
  intro H. destruct z as [x y]. unfold norm2; simpl.
  destruct (Req_dec x 0) as [->|]; [destruct (Req_dec y 0) as [->|]; [congruence|]|]; nra.
Qed.
Lemma cabs_pos z : z <> (0, 0) -> 0 < cabs z.
Proof. intro H. apply sqrt_lt_R0, norm2_pos, H. Qed.
Lemma cabs_unique z r : 0 <= r -> r * r = norm2 z -> cabs z = r.
Proof. intros H E. unfold cabs. rewrite <- E. apply sqrt_square, H. Qed.
Lemma cabs_mul a b : cabs (cmul a b) = cabs a * cabs b.
Proof.
  apply cabs_unique. { apply Rmult_le_pos; apply cabs_nonneg. }
  replace (cabs a * cabs b * (cabs a * cabs b)) with ((cabs a * cabs a) * (cabs b * cabs b)) by ring.
  rewrite !cabs_sq. unfold norm2, cmul, re, im; simpl; ring.
Qed.
Lemma cabs_conj a : cabs (conj a) = cabs a.
Proof. unfold cabs. f_equal. unfold norm2, conj; simpl; ring. Qed.
Lemma cabs_scale k a : 0 <= k -> cabs (cscale k a) = k * cabs a.
Proof.
  intro K. apply cabs_unique. { apply Rmult_le_pos; [assumption|apply cabs_nonneg]. }
  replace (k * cabs a * (k * cabs a)) with (k * k * (cabs a * cabs a)) by ring.
  rewrite cabs_sq. unfold norm2, cscale; simpl; ring.
Qed.
Lemma cabs_neg a : cabs (cscale (-1) a) = cabs a.
Proof. unfold cabs. f_equal. unfold norm2, cscale; simpl; ring. Qed.
Lemma cabs_cexp t : cabs (cexp t) = 1.
Proof.
  apply cabs_unique; [lra|]. unfold norm2, cexp; simpl.
  pose proof (sin2_cos2 t) as H. unfold Rsqr in H. lra.
Qed.
Lemma cmul_comm a b : cmul a b = cmul b a.
Proof. unfold cmul; f_equal; ring. Qed.
Lemma cmul_assoc a b c : cmul a (cmul b c) = cmul (cmul a b) c.
Proof. unfold cmul, re, im; simpl; f_equal; ring. Qed.
Lemma cdiv_mul s u : u <> (0, 0) -> cmul u (cdiv s u) = s.
Proof.
  intro H. pose proof (norm2_pos u H) as N. destruct u as [x y], s as [p q].
  unfold cdiv, cmul, cinv, re, im; simpl. unfold norm2, re, im in *; simpl in *. f_equal; field; lra.
Qed.
Lemma cinv_mul z : z <> (0, 0) -> cmul z (cinv z) = (1, 0).
Proof.
  intro H. pose proof (norm2_pos z H) as N. destruct z as [x y].
  unfold cmul, cinv, re, im; simpl. unfold norm2, re, im in *; simpl in *. f_equal; field; lra.
Qed.
Lemma cabs_inv z : z <> (0, 0) -> cabs (cinv z) = / cabs z.
Proof.
  intro H. pose proof (cabs_pos z H). apply (Rmult_eq_reg_l (cabs z)); [|lra].
  rewrite <- cabs_mul, (cinv_mul z H), Rinv_r by lra. apply cabs_unique; [lra|]. unfold norm2; simpl; ring.
Qed.
Lemma conj_conj z : conj (conj z) = z.
Proof. destruct z; unfold conj; simpl; f_equal; ring. Qed.

(** angles *)
Lemma arg_polar z : z <> (0, 0) -> z = cscale (cabs z) (cexp (arg z)).
Proof.
  intro H. pose proof (cabs_pos z H) as P. pose proof (cabs_sq z) as Q. destruct z as [x y].
  set (r := cabs (x, y)) in *. unfold norm2, re, im in Q; simpl in Q.
  assert (B : -1 <= x / r <= 1).
  { assert (- r <= x <= r) by nra. split.
    - apply (Rmult_le_reg_r r); [lra|]. unfold Rdiv. rewrite Rmult_assoc, Rinv_l by lra. lra.
    - apply (Rmult_le_reg_r r); [lra|]. unfold Rdiv. rewrite Rmult_assoc, Rinv_l by lra. lra. }
  assert (S : sqrt (1 - (x / r)²) = Rabs y / r).
  { apply sqrt_lem_1.
    - unfold Rsqr. assert (x / r * (x / r) <= 1) by nra. lra.
    - apply Rmult_le_pos; [apply Rabs_pos|]. left; apply Rinv_0_lt_compat; lra.
    - unfold Rsqr. replace (Rabs y / r * (Rabs y / r)) with ((Rabs y * Rabs y) / (r * r)) by (field; lra).
      replace (Rabs y * Rabs y) with (y * y) by (unfold Rabs; destruct (Rcase_abs y); ring).
      replace (y * y) with (r * r - x * x) by lra. field. lra. }
  unfold arg, cexp, cscale, re, im; simpl. fold r.
  destruct (Rlt_dec y 0) as [L|L]; simpl.
  - rewrite cos_neg, sin_neg, cos_acos, sin_acos, S by assumption. rewrite Rabs_left by assumption.
    f_equal; field; lra.
  - rewrite cos_acos, sin_acos, S by assumption. rewrite Rabs_right by lra. f_equal; field; lra.
Qed.
Lemma acos_range x : -1 <= x <= 1 -> 0 <= acos x <= PI.
Proof. intros _. split; apply acos_bound. Qed.
Lemma arg_range z : - PI <= arg z <= PI.
Proof.
  unfold arg. pose proof (acos_bound (re z / cabs z)). pose proof PI_RGT_0.
  destruct (Rlt_dec (im z) 0); lra.
Qed.

Lemma same_angle_of_cexp a b : cexp a = cexp b -> same_angle a b.
Proof.
  intro E. injection E; intros E2 E1.
  assert (Z : sin ((a - b) / 2) = 0).
  { pose proof (cos_2a_sin ((a - b) / 2)) as T. replace (2 * ((a - b) / 2)) with (a - b) in T by field.
    rewrite cos_minus, E1, E2 in T. pose proof (sin2_cos2 b) as P. unfold Rsqr in P. nra. }
  destruct (sin_eq_0_0 _ Z) as [k K]. exists k. lra.
Qed.
Lemma cos_period_Z x k : cos (x + IZR k * (2 * PI)) = cos x.
Proof.
  destruct k as [|p|p].
  - f_equal; ring.
  - rewrite <- (cos_period x (Pos.to_nat p)). f_equal. rewrite INR_IPR. unfold IZR. ring.
  - rewrite <- (cos_period (x + IZR (Z.neg p) * (2 * PI)) (Pos.to_nat p)). f_equal.
    rewrite INR_IPR. unfold IZR. ring.
Qed.
Lemma sin_period_Z x k : sin (x + IZR k * (2 * PI)) = sin x.
Proof.
  destruct k as [|p|p].
  - f_equal; ring.
  - rewrite <- (sin_period x (Pos.to_nat p)). f_equal. rewrite INR_IPR. unfold IZR. ring.
  - rewrite <- (sin_period (x + IZR (Z.neg p) * (2 * PI)) (Pos.to_nat p)). f_equal.
    rewrite INR_IPR. unfold IZR. ring.
Qed.
Lemma cexp_of_same_angle a b : same_angle a b -> cexp a = cexp b.
Proof. intros [k ->]. unfold cexp. rewrite cos_period_Z, sin_period_Z. reflexivity. Qed.

Lemma cexp_plus a b : cexp (a + b) = cmul (cexp a) (cexp b).
Proof. unfold cexp, cmul, re, im; simpl. rewrite cos_plus, sin_plus. f_equal; ring. Qed.
Lemma cexp_neg a : cexp (- a) = conj (cexp a).
Proof. unfold cexp, conj, re, im; simpl. rewrite cos_neg, sin_neg. reflexivity. Qed.
Lemma cexp_minus a b : cexp (a - b) = cmul (cexp a) (conj (cexp b)).
Proof. unfold Rminus. rewrite cexp_plus, cexp_neg. reflexivity. Qed.
Lemma cscale_inj k a b : k <> 0 -> cscale k a = cscale k b -> a = b.
Proof.
  intros K E. destruct a as [x y], b as [x' y']. unfold cscale, re, im in E; simpl in E. injection E; intros E2 E1.
  f_equal; eapply Rmult_eq_reg_l; eassumption.
Qed.
(** the direction of a complex number that is not zero is its angle *)
Lemma cexp_arg_scale m t : 0 < m -> cexp (arg (cscale m (cexp t))) = cexp t.
Proof.
  intro M. assert (N : cscale m (cexp t) <> (0, 0)).
  { intro E. pose proof (cabs_cexp t) as A. assert (B : cabs (cscale m (cexp t)) = m * 1) by (rewrite cabs_scale, A; lra).
    rewrite E in B. assert (cabs (0, 0) = 0) by (apply cabs_unique; [lra|unfold norm2; simpl; ring]). lra. }
  pose proof (arg_polar _ N) as P. rewrite cabs_scale, cabs_cexp, Rmult_1_r in P by lra.
  symmetry. apply (cscale_inj m); [lra|exact P].
Qed.
Lemma cexp_1 t : cscale 1 (cexp t) = cexp t.
Proof. unfold cscale, cexp; simpl; f_equal; ring. Qed.
Lemma phase_mod_same t : same_angle (phase_mod_2pi t) t.
Proof.
  apply same_angle_of_cexp. unfold phase_mod_2pi. rewrite <- (cexp_1 t) at 1. apply cexp_arg_scale; lra.
Qed.
Lemma phase_mod_range t : - PI <= phase_mod_2pi t <= PI.
Proof. apply arg_range. Qed.
Lemma same_angle_refl a : same_angle a a.
Proof. exists 0%Z. simpl. ring. Qed.
Lemma same_angle_sym a b : same_angle a b -> same_angle b a.
Proof. intros [k E]. exists (- k)%Z. rewrite opp_IZR. lra. Qed.
Lemma same_angle_trans a b c : same_angle a b -> same_angle b c -> same_angle a c.
Proof. intros [k E] [l F]. exists (k + l)%Z. rewrite plus_IZR. lra. Qed.
Lemma same_angle_minus a b c d : same_angle a b -> same_angle c d -> same_angle (a - c) (b - d).
Proof. intros [k E] [l F]. exists (k - l)%Z. rewrite minus_IZR. lra. Qed.
Lemma arg_polar_angle m t : 0 < m -> same_angle (arg (cscale m (cexp t))) t.
Proof. intro M. apply same_angle_of_cexp, cexp_arg_scale, M. Qed.
Lemma arg_zero_angle m t z : 0 < m -> z = cscale m (cexp t) -> same_angle (arg z) t.
Proof. intros M ->. apply arg_polar_angle, M. Qed.

(** the rotations by 120 degrees *)
Lemma a1_cexp : a1 = cexp (2 * PI / 3).
Proof.
  unfold a1, cexp. replace (2 * PI / 3) with (2 * (PI / 3)) by field. rewrite cos_2PI3, sin_2PI3.
  pose proof sqrt3_pos. f_equal; field.
Qed.
Lemma a2_cexp : a2 = cexp (- (2 * PI / 3)).
Proof.
  rewrite cexp_neg, <- a1_cexp. unfold a2, a1, conj, re, im; simpl. f_equal; field.
Qed.
Lemma cabs_a1 : cabs a1 = 1. Proof. rewrite a1_cexp. apply cabs_cexp. Qed.
Lemma cabs_a2 : cabs a2 = 1. Proof. rewrite a2_cexp. apply cabs_cexp. Qed.
Lemma cmul_polar m a b : cmul (cscale m (cexp a)) (cexp b) = cscale m (cexp (a + b)).
Proof. rewrite cexp_plus. unfold cscale, cmul, re, im; simpl. f_equal; ring. Qed.
Lemma arg_rotate z t : z <> (0, 0) -> same_angle (arg (cmul z (cexp t))) (arg z + t).
Proof.
  intro H. rewrite (arg_polar z H) at 1. rewrite cmul_polar. apply arg_polar_angle, cabs_pos, H.
Qed.
Lemma arg_conj_rotate z t : z <> (0, 0) -> same_angle (arg (cmul (conj z) (cexp t))) (t - arg z).
Proof.
  intro H. rewrite (arg_polar z H) at 1.
  replace (conj (cscale (cabs z) (cexp (arg z)))) with (cscale (cabs z) (cexp (- arg z)))
    by (rewrite cexp_neg; unfold cscale, conj, re, im; simpl; f_equal; ring).
  rewrite cmul_polar. replace (- arg z + t) with (t - arg z) by ring. apply arg_polar_angle, cabs_pos, H.
Qed.

(** bases *)
Lemma base_power_pos y : 0 < base_power y.
Proof. destruct y; unfold base_power, base_power_1p, base_power_3p; lra. Qed.
Lemma base_i_pos u : 0 < u -> 0 < base_i u.
Proof.
  intro U. unfold base_i, base_power_3p. pose proof sqrt3_pos.
  apply Rdiv_lt_0_compat; [apply Rdiv_lt_0_compat; lra|assumption].
Qed.
Lemma base_current_eq u : 0 < u -> base_current u = base_i u.
Proof. intro U. unfold base_current, base_i. pose proof sqrt3_pos. field. lra. Qed.
Lemma base_y_eq u : 0 < u -> base_y u = base_power_3p / (u * u).
Proof. intro U. unfold base_y, base_i. pose proof sqrt3_pos. field. lra. Qed.
(** the base of the power is that of voltage and current together *)
Lemma base_product y u : 0 < u -> line_factor y * (u_scale y * u) * base_i u = base_power y.
Proof.
  intro U. unfold base_i. pose proof sqrt3_pos. pose proof sqrt3_sq as Q.
  destruct y; simpl.
  - field. lra.
  - unfold base_power_1p. replace (base_power_3p / 3) with (base_power_3p / (sqrt 3 * sqrt 3)) by (rewrite Q; reflexivity). field. lra.
Qed.
