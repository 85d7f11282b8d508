(** C62, continued: three-winding transformers, and examples. *)
From Coq Require Import Reals ZArith Bool List Lra Lia Field.
From Verif Require Import Common Component TwoPort TwoPortSpec TwoPortFacts TwoPortProps Taps Units UnitsFacts Ratings RatingsSpec RatingsFacts RatingsProps RatingsZero.
Import ListNotations.
Local Open Scope R_scope.

(** ** Three-winding transformers: three transformers to a common point, at the voltage of side 1 *)
(** the series impedances of the three, in ohms at side 1 *)
Definition leg_z (i : transformer_in) : C := z_series (tr_uk i) (tr_pk i) (tr_u2 i) (tr_sn i).
Lemma rmin_pos a b : 0 < a -> 0 < b -> 0 < Rmin a b. Proof. intros. now apply Rmin_glb_lt. Qed.
Lemma lossless uk u sn : 0 < sn -> z_series uk 0 u sn = (0, uk * u * u / sn).
Proof.
  intros SN. unfold z_series. apply c_eq; unfold re, im; cbn [fst snd]; [field; lra|].
  set (a := Rabs uk * u * u / sn). replace (0 * u * u / sn / sn) with 0 by (field; lra).
  assert (A : 0 <= a).
  { unfold a. replace (Rabs uk * u * u / sn) with (Rabs uk * (u * u) * / sn) by (field; lra).
    apply Rmult_le_pos; [apply Rmult_le_pos; [apply Rabs_pos|nra]|apply Rlt_le, Rinv_0_lt_compat, SN]. }
  replace (a * a - 0 * 0) with (a * a) by ring.
  assert (Q : (if Rlt_dec 0 (a * a) then sqrt (a * a) else 0) = a).
  { destruct (Rlt_dec 0 (a * a)); [apply sqrt_square, A|]. assert (a = 0) by nra. lra. }
  rewrite Q. unfold a. destruct (Rle_dec 0 uk); [rewrite Rabs_right by lra; field; lra|rewrite Rabs_left by lra; field; lra].
Qed.
Lemma re_z uk pk u sn : re (z_series uk pk u sn) = pk * u * u / sn / sn. Proof. reflexivity. Qed.
(** The losses are those of the three short-circuit tests, each at the lower of the two rated powers; without losses, so are the voltages. The no-load test is that of side 1. *)
Theorem C62_three_winding_partial : forall i : three_winding_in, 0 < w3_u1 i -> 0 < w3_sn1 i -> 0 < w3_sn2 i -> 0 < w3_sn3 i ->
  let '(t1, t2, t3) := convert_to_two_winding_transformers i in
  let losses pk sn z := 3 * (re z * (rated_current sn (w3_u1 i) * rated_current sn (w3_u1 i))) = pk in
  let z12 := cadd (leg_z t1) (leg_z t2) in let z13 := cadd (leg_z t1) (leg_z t3) in let z23 := cadd (leg_z t2) (leg_z t3) in
  losses (w3_pk12 i) (Rmin (w3_sn1 i) (w3_sn2 i)) z12 /\ losses (w3_pk13 i) (Rmin (w3_sn1 i) (w3_sn3 i)) z13 /\ losses (w3_pk23 i) (Rmin (w3_sn2 i) (w3_sn3 i)) z23 /\
  (w3_pk12 i = 0 -> w3_pk13 i = 0 -> w3_pk23 i = 0 ->
    short_circuit_test (w3_uk12 i) 0 (Rmin (w3_sn1 i) (w3_sn2 i)) (w3_u1 i) z12 /\
    short_circuit_test (w3_uk13 i) 0 (Rmin (w3_sn1 i) (w3_sn3 i)) (w3_u1 i) z13 /\
    short_circuit_test (w3_uk23 i) 0 (Rmin (w3_sn2 i) (w3_sn3 i)) (w3_u1 i) z23) /\
  (0 <= w3_i0 i -> Rabs (w3_p0 i) <= w3_i0 i * w3_sn1 i -> no_load_test (w3_i0 i) (w3_p0 i) (w3_sn1 i) (w3_u1 i) (y_shunt (tr_i0 t1) (tr_p0 t1) (tr_u2 t1) (tr_sn t1))) /\
  y_shunt (tr_i0 t2) (tr_p0 t2) (tr_u2 t2) (tr_sn t2) = (0, 0) /\ y_shunt (tr_i0 t3) (tr_p0 t3) (tr_u2 t3) (tr_sn t3) = (0, 0).
Proof.
  intros i U S1 S2 S3. unfold convert_to_two_winding_transformers, calculate_uk, calculate_pk. cbn [real_ops r_add r_sub r_mul r_div r_min r_1].
  pose proof (rmin_pos _ _ S1 S2) as M12. pose proof (rmin_pos _ _ S1 S3) as M13. pose proof (rmin_pos _ _ S2 S3) as M23.
  generalize dependent (Rmin (w3_sn1 i) (w3_sn2 i)). generalize dependent (Rmin (w3_sn1 i) (w3_sn3 i)). generalize dependent (Rmin (w3_sn2 i) (w3_sn3 i)).
  intros m23 M23 m13 M13 m12 M12. pose proof sqrt3_pos as P3. pose proof sqrt3_sq as SS.
  unfold leg_z, leg, rated_current. cbn [tr_uk tr_pk tr_u2 tr_sn tr_i0 tr_p0].
  assert (L : forall pk m x, 0 < m -> x = pk * (w3_u1 i * w3_u1 i) / (m * m) -> 3 * (x * (m / (sqrt 3 * w3_u1 i) * (m / (sqrt 3 * w3_u1 i)))) = pk).
  { intros pk m x Hm ->. transitivity (3 * pk / (sqrt 3 * sqrt 3)); [field; lra|rewrite SS; field]. }
  assert (RA : forall a b, re (cadd a b) = re a + re b) by reflexivity.
  refine (Logic.conj _ (Logic.conj _ (Logic.conj _ (Logic.conj _ (Logic.conj _ (Logic.conj _ _)))))).
  - apply L; [exact M12|]. rewrite RA, !re_z. field. lra.
  - apply L; [exact M13|]. rewrite RA, !re_z. field. lra.
  - apply L; [exact M23|]. rewrite RA, !re_z. field. lra.
  - intros P12 P13 P23. rewrite P12, P13, P23.
    match goal with |- context [z_series ?uk ?pk (w3_u1 i) (w3_sn1 i)] => replace pk with 0 by (field; lra) end.
    match goal with |- context [z_series ?uk ?pk (w3_u1 i) (w3_sn2 i)] => replace pk with 0 by (field; lra) end.
    match goal with |- context [z_series ?uk ?pk (w3_u1 i) (w3_sn3 i)] => replace pk with 0 by (field; lra) end.
    rewrite !lossless by assumption.
    assert (T : forall uk m x, 0 < m -> x = uk * (w3_u1 i * w3_u1 i / m) -> short_circuit_test uk 0 m (w3_u1 i) (0, x)).
    { intros uk m x Hm ->. replace (uk * (w3_u1 i * w3_u1 i / m)) with (uk * w3_u1 i * w3_u1 i / m) by (field; lra).
      rewrite <- (lossless uk (w3_u1 i) m Hm). apply z_series_test; auto. rewrite Rabs_R0. apply Rmult_le_pos; [apply Rabs_pos|lra]. }
    assert (CA : forall a b, cadd (0, a) (0, b) = (0, a + b)) by (intros; creal; ring).
    rewrite !CA. refine (Logic.conj _ (Logic.conj _ _)); apply T; auto; field; lra.
  - intros. now apply y_shunt_test.
  - unfold y_shunt. assert (Q : 0 * w3_sn2 i / w3_u1 i / w3_u1 i * (0 * w3_sn2 i / w3_u1 i / w3_u1 i) - 0 / w3_u1 i / w3_u1 i * (0 / w3_u1 i / w3_u1 i) = 0) by (field; lra).
    rewrite Q. destruct (Rlt_dec 0 0); [lra|]. apply c_eq; unfold re, im; cbn [fst snd]; [field; lra|reflexivity].
  - unfold y_shunt. assert (Q : 0 * w3_sn3 i / w3_u1 i / w3_u1 i * (0 * w3_sn3 i / w3_u1 i / w3_u1 i) - 0 / w3_u1 i / w3_u1 i * (0 / w3_u1 i / w3_u1 i) = 0) by (field; lra).
    rewrite Q. destruct (Rlt_dec 0 0); [lra|]. apply c_eq; unfold re, im; cbn [fst snd]; [field; lra|reflexivity].
Qed.
(** With losses the short-circuit voltages are not those of the nameplate: the moduli of the three impedances are chosen so that their sums, and not the moduli of the sums, are right. *)
Lemma z_numbers a b : 0 < a -> 0 <= b -> 0 <= a * a - b * b -> forall x, 0 <= x -> x * x = a * a - b * b -> z_series a b 1 1 = (b, x).
Proof.
  intros A B D x X E. unfold z_series. rewrite (Rabs_right a) by lra. destruct (Rle_dec 0 a); [|lra].
  apply c_eq; unfold re, im; cbn [fst snd]; [field|].
  replace (a * 1 * 1 / 1 * (a * 1 * 1 / 1) - b * 1 * 1 / 1 / 1 * (b * 1 * 1 / 1 / 1)) with (x * x) by (rewrite E; field).
  destruct (Rlt_dec 0 (x * x)); [rewrite sqrt_square by exact X; ring|nra].
Qed.
Theorem C62_three_winding_refuted : exists i : three_winding_in,
  0 < w3_u1 i /\ 0 < w3_sn1 i /\ 0 < w3_sn2 i /\ 0 < w3_sn3 i /\
  (forall uk pk sn, In (uk, pk, sn) [(w3_uk12 i, w3_pk12 i, Rmin (w3_sn1 i) (w3_sn2 i)); (w3_uk13 i, w3_pk13 i, Rmin (w3_sn1 i) (w3_sn3 i)); (w3_uk23 i, w3_pk23 i, Rmin (w3_sn2 i) (w3_sn3 i))] ->
    0 < uk < 1 /\ 0 < pk <= uk * sn) /\
  let '(t1, t2, _) := convert_to_two_winding_transformers i in
  ~ short_circuit_test (w3_uk12 i) (w3_pk12 i) (Rmin (w3_sn1 i) (w3_sn2 i)) (w3_u1 i) (cadd (leg_z t1) (leg_z t2)).
Proof.
  exists (mkThreeWindingIn 1 1 1 1 1 1 (1 / 5) (1 / 5) (1 / 5) (7 / 50) (3 / 50) (4 / 50) 0 0 Wye Wye Wye 0 0 None None None None None None).
  cbn [w3_u1 w3_sn1 w3_sn2 w3_sn3 w3_uk12 w3_uk13 w3_uk23 w3_pk12 w3_pk13 w3_pk23]. rewrite (Rmin_left 1 1) by lra.
  refine (Logic.conj _ (Logic.conj _ (Logic.conj _ (Logic.conj _ (Logic.conj _ _))))); try lra.
  - intros uk pk sn [E|[E|[E|[]]]]; injection E as <- <- <-; lra.
  - unfold convert_to_two_winding_transformers, calculate_uk, calculate_pk. cbn [real_ops r_add r_sub r_mul r_div r_min r_1 w3_u1 w3_u2 w3_sn1 w3_sn2 w3_sn3 w3_uk12 w3_uk13 w3_uk23 w3_pk12 w3_pk13 w3_pk23].
    rewrite (Rmin_left 1 1) by lra. unfold leg_z, leg. cbn [tr_uk tr_pk tr_u2 tr_sn].
    match goal with |- context [cadd (z_series ?a ?b 1 1) (z_series ?c ?d 1 1)] =>
      replace (z_series c d 1 1) with (z_series (1 / 10) (4 / 50) 1 1) by (f_equal; lra); replace (z_series a b 1 1) with (z_series (1 / 10) (3 / 50) 1 1) by (f_equal; lra) end.
    rewrite (z_numbers (1 / 10) (3 / 50) ltac:(lra) ltac:(lra) ltac:(lra) (4 / 50)) by lra.
    rewrite (z_numbers (1 / 10) (4 / 50) ltac:(lra) ltac:(lra) ltac:(lra) (3 / 50)) by lra.
    intros (H & _). unfold rated_current in H. pose proof sqrt3_pos as P3. rewrite Rabs_right in H by lra.
    assert (Q : cabs (cadd (3 / 50, 4 / 50) (4 / 50, 3 / 50)) = 1 / 5) by (rewrite <- (Rmult_1_r (1 / 5)), <- H; field; lra).
    pose proof (cabs_sq (cadd (3 / 50, 4 / 50) (4 / 50, 3 / 50))) as E. rewrite Q in E. unfold norm2, cadd, re, im in E. cbn [fst snd] in E. lra.
Qed.

(** ** A delta winding at side 1 of a three-winding transformer *)
Lemma leg_calc u1 u2 sn uk pk i0 p0 from to clock r x u1r u2r : is_valid_clock clock from to = true -> 0 < u2r ->
  transformer_calc (leg u1 u2 sn uk pk i0 p0 from to clock r x) u1r u2r =
  Some (mkTransformerPar (cscale (/ base_y u2r) (cinv (z_series uk pk u2 sn))) (cscale (/ base_y u2r) (y_shunt i0 p0 u2 sn))
    (cscale (/ base_y u2r) (y_shunt i0 (p0 + pk * (i0 * i0 - i0 * i0)) u2 sn)) (u1 / u2 / (u1r / u2r), 0) (map_to_cyclic_range clock 12) from to
    (calculate_z_pu r x u1r) (calculate_z_pu (Some 0) (Some 0) u2r) (0, - (1 / 100000000) * sn / base_power_3p / uk)).
Proof.
  intros V U2. unfold transformer_calc, leg, transformer_new. cbn [tr_taps tr_clock tr_from tr_to]. rewrite V.
  unfold transformer_at, tap_voltages. cbn [tr_tap_at_from tr_u1 tr_u2 tr_tap_size tr_sn tr_uk tr_pk tr_i0 tr_p0 tr_i0_zero tr_p0_zero tr_uk_min tr_uk_max tr_pk_min tr_pk_max
    tr_r_from tr_x_from tr_r_to tr_x_to tr_from tr_to or_else]. cbv zeta.
  rewrite (base_y_to u2r U2).
  assert (A : forall xk, adjust real_ops (taps_new (mkTapsIn 0 0 0 0)) xk xk xk = xk) by reflexivity.
  assert (T : tap_voltage real_ops (taps_new (mkTapsIn 0 0 0 0)) u1 0 = u1) by (unfold tap_voltage; cbn [real_ops r_add r_mul r_z]; ring).
  rewrite T, !A. reflexivity.
Qed.
Lemma cexp_cyclic c : cexp (IZR (map_to_cyclic_range c 12) * (PI / 6)) = cexp (IZR c * (PI / 6)).
Proof.
  unfold map_to_cyclic_range. pose proof (Z.quot_rem' c 12) as Q. set (q := Z.quot c 12) in *. set (r := Z.rem c 12) in *. clearbody q r.
  pose proof (Z.quot_rem' (r + 12) 12) as Q2. set (q2 := Z.quot (r + 12) 12) in *. set (r2 := Z.rem (r + 12) 12) in *. clearbody q2 r2.
  assert (E : r2 = (c + 12 * (1 - q - q2))%Z) by lia. rewrite E. change (c_rot complex_ops (c + 12 * (1 - q - q2)) = c_rot complex_ops c).
  generalize (1 - q - q2)%Z. clear. intros k.
  assert (P : c_rot complex_ops (12 * k) = c_1 complex_ops).
  { cbn [complex_ops c_rot c_1]. replace (IZR (12 * k) * (PI / 6)) with (0 + IZR k * (2 * PI)) by (rewrite mult_IZR; field). unfold cexp.
    rewrite cos_period_Z, sin_period_Z, cos_0, sin_0. reflexivity. }
  rewrite (rl_add complex_ops complex_rots), P. cbn [complex_ops c_mul c_1]. creal; ring.
Qed.
Lemma leg_circuit u1 u2 sn uk pk i0 p0 from to clock r x u1r u2r : is_valid_clock clock from to = true -> 0 < u1 -> 0 < u2 -> 0 < u1r -> 0 < u2r ->
  forall z y : C, z = z_series uk pk u2 sn -> y = y_shunt i0 p0 u2 sn -> z <> (0, 0) ->
  exists par, transformer_calc (leg u1 u2 sn uk pk i0 p0 from to clock r x) u1r u2r = Some par /\
  forall fs ts, open_end_regular fs ts u2r z y -> forall uf ut i_f i_t : C,
  injects complex_ops (calc_param_sym complex_ops fs ts true (KTransformer par)) uf ut i_f i_t <->
  si_circuit fs ts z y (cscale (u1 / u2) (cexp (IZR clock * (PI / 6)))) u1r u2r uf ut i_f i_t.
Proof.
  intros V U1 U2 U1r U2r z y Ez Ey Z. eexists. split; [apply leg_calc; assumption|]. intros fs ts Hr uf ut i_f i_t. erewrite calc_y by reflexivity. cbn [tp_y_series tp_y_shunt tp_k tp_clock]. rewrite <- Ez, <- Ey.
  assert (RT : u1r / u2r <> 0) by (apply Rgt_not_eq, Rdiv_lt_0_compat; assumption).
  assert (KN : u1 / u2 / (u1r / u2r) <> 0) by (apply Rgt_not_eq, Rdiv_lt_0_compat; apply Rdiv_lt_0_compat; assumption).
  assert (E : c_mul complex_ops (u1 / u2 / (u1r / u2r), 0) (c_rot complex_ops (map_to_cyclic_range clock 12)) = cscale (u1 / u2 / (u1r / u2r)) (cexp (IZR clock * (PI / 6)))).
  { cbn [complex_ops c_mul c_rot]. rewrite cexp_cyclic. creal; ring. }
  pose proof (scale_nz _ _ KN (clock_unit clock)) as N.
  rewrite E, (si_general fs ts _ _ _ u1r u2r uf ut i_f i_t U1r U2r Z N Hr).
  rewrite scale_scale. replace (u1r / u2r * (u1 / u2 / (u1r / u2r))) with (u1 / u2) by (field; lra). reflexivity.
Qed.
Lemma reversed_clock c wf wt : is_valid_clock c wf wt = true -> is_valid_clock (12 - c) wt wf = true.
Proof.
  unfold is_valid_clock. intros H. assert (E : (Z.rem (12 - c) 2 =? 0)%Z = (Z.rem c 2 =? 0)%Z).
  { pose proof (Z.quot_rem' c 2). pose proof (Z.quot_rem' (12 - c) 2). pose proof (Z.rem_bound_abs c 2 ltac:(lia)). pose proof (Z.rem_bound_abs (12 - c) 2 ltac:(lia)). lia. }
  rewrite E. destruct (is_wye wf), (is_wye wt); exact H.
Qed.
(** The circuit of a three-winding transformer: a star of the three impedances, at the voltage of side 1, with the no-load admittance in the leg of side 1. The voltages of sides 2 and 3 are
    those of the centre times the ratios of the rated voltages, [clock12] and [clock13] hours behind. [s] tells whether the side is closed. *)
Theorem C62_three_winding_circuit : forall (i : three_winding_in) (u1_rated u2_rated u3_rated : R), 0 < w3_u1 i -> 0 < w3_u2 i -> 0 < w3_u3 i -> 0 < u1_rated -> 0 < u2_rated -> 0 < u3_rated ->
  is_valid_clock (w3_clock12 i) (w3_w1 i) (w3_w2 i) = true -> is_valid_clock (w3_clock13 i) (w3_w1 i) (w3_w3 i) = true ->
  let '(t1, t2, t3) := convert_to_two_winding_transformers i in leg_z t1 <> (0, 0) -> leg_z t2 <> (0, 0) -> leg_z t3 <> (0, 0) ->
  let y := y_shunt (w3_i0 i) (w3_p0 i) (w3_u1 i) (w3_sn1 i) in
  let behind hours := cexp (- (IZR hours * (PI / 6))) in
  exists p1 p2 p3 : transformer_par, transformer_calc t1 u1_rated u1_rated = Some p1 /\ transformer_calc t2 u2_rated u1_rated = Some p2 /\ transformer_calc t3 u3_rated u1_rated = Some p3 /\
  forall (s : bool) (u centre i_side i_centre : C),
  (open_end_regular s true u1_rated (leg_z t1) y ->
    injects complex_ops (calc_param_sym complex_ops s true true (KTransformer p1)) u centre i_side i_centre <->
    si_circuit s true (leg_z t1) y (1, 0) u1_rated u1_rated u centre i_side i_centre) /\
  (open_end_regular s true u1_rated (leg_z t2) (0, 0) ->
    injects complex_ops (calc_param_sym complex_ops s true true (KTransformer p2)) u centre i_side i_centre <->
    si_circuit s true (leg_z t2) (0, 0) (cscale (w3_u2 i / w3_u1 i) (behind (w3_clock12 i))) u2_rated u1_rated u centre i_side i_centre) /\
  (open_end_regular s true u1_rated (leg_z t3) (0, 0) ->
    injects complex_ops (calc_param_sym complex_ops s true true (KTransformer p3)) u centre i_side i_centre <->
    si_circuit s true (leg_z t3) (0, 0) (cscale (w3_u3 i / w3_u1 i) (behind (w3_clock13 i))) u3_rated u1_rated u centre i_side i_centre).
Proof.
  intros i u1r u2r u3r U1 U2 U3 R1 R2 R3 V12 V13. unfold convert_to_two_winding_transformers.
  destruct (calculate_uk real_ops (w3_sn1 i) (w3_sn2 i) (w3_sn3 i) (w3_uk12 i) (w3_uk13 i) (w3_uk23 i)) as [[k1 k2] k3].
  destruct (calculate_pk real_ops (w3_sn1 i) (w3_sn2 i) (w3_sn3 i) (w3_pk12 i) (w3_pk13 i) (w3_pk23 i)) as [[l1 l2] l3].
  cbv beta iota. unfold leg_z. cbn [tr_uk tr_pk tr_u2 tr_sn leg]. intros Z1 Z2 Z3.
  assert (S : forall sn, y_shunt 0 0 (w3_u1 i) sn = (0, 0)).
  { intros sn. unfold y_shunt. replace (0 * sn / w3_u1 i / w3_u1 i) with 0 by (field; lra). replace (0 / w3_u1 i / w3_u1 i) with 0 by (field; lra).
    replace (0 * 0 - 0 * 0) with 0 by ring. destruct (Rlt_dec 0 0); [lra|reflexivity]. }
  assert (A : forall c, cexp (IZR (12 - c) * (PI / 6)) = cexp (- (IZR c * (PI / 6)))).
  { intros c. rewrite minus_IZR. replace ((12 - IZR c) * (PI / 6)) with (- (IZR c * (PI / 6)) + IZR 1 * (2 * PI)) by (simpl; field). unfold cexp.
    rewrite (cos_period_Z _ 1), (sin_period_Z _ 1). reflexivity. }
  destruct (leg_circuit (w3_u1 i) (w3_u1 i) (w3_sn1 i) k1 l1 (w3_i0 i) (w3_p0 i) WyeN WyeN 0 (w3_r1 i) (w3_x1 i) u1r u1r eq_refl U1 U1 R1 R1 _ _ eq_refl eq_refl Z1) as (p1 & E1 & H1).
  destruct (leg_circuit (w3_u2 i) (w3_u1 i) (w3_sn2 i) k2 l2 0 0 (w3_w2 i) (w3_w1 i) (12 - w3_clock12 i) (w3_r2 i) (w3_x2 i) u2r u1r (reversed_clock _ _ _ V12) U2 U1 R2 R1 _ _ eq_refl eq_refl Z2) as (p2 & E2 & H2).
  destruct (leg_circuit (w3_u3 i) (w3_u1 i) (w3_sn3 i) k3 l3 0 0 (w3_w3 i) (w3_w1 i) (12 - w3_clock13 i) (w3_r3 i) (w3_x3 i) u3r u1r (reversed_clock _ _ _ V13) U3 U1 R3 R1 _ _ eq_refl eq_refl Z3) as (p3 & E3 & H3).
  exists p1, p2, p3. refine (Logic.conj E1 (Logic.conj E2 (Logic.conj E3 _))). intros s u c a b. rewrite S, A in H2, H3.
  refine (Logic.conj _ (Logic.conj _ _)); intros Hr.
  - rewrite (H1 s true Hr). replace (w3_u1 i / w3_u1 i) with 1 by (field; lra). rewrite scale_1. replace (IZR 0 * (PI / 6)) with 0 by (simpl; ring). rewrite cexp0. reflexivity.
  - apply (H2 s true Hr).
  - apply (H3 s true Hr).
Qed.
(** In a delta winding no current can flow that is equal in the three phases. A transformer with a delta winding takes none there, apart from a small susceptance that is
    added; in particular no active power. A three-winding transformer with a delta winding at side 1 does: its first transformer is always one between two earthed
    stars, and its magnetising branch is part of the zero sequence. Here the other two sides are open; [d] is the voltage of the common point, where the currents add up to zero. *)
Theorem C62_delta_winding : forall (fs ts : bool) (t : @transformer_par C), tp_winding_from t = Delta -> re (tp_low_susceptance t) = 0 ->
  exists q, acts_as complex_ops (transformer_asym complex_ops fs ts t) (equal_phases complex_ops) q /\
  forall u d, re (cmul u (conj (cadd (cmul (yff q) u) (cmul (yft q) d)))) = 0.
Proof.
  intros fs ts t W L. exists (transformer_param0 complex_ops fs ts t). destruct (transformer_sequences complex_ops complex_laws fs ts t complex_rots) as (_ & _ & HS).
  split; [exact HS|]. intros u d. unfold transformer_param0, transformer_param0_path. rewrite W. cbn [is_wye_n is_zigzag_n andb zero_seq_available negb].
  destruct (is_wye_n (tp_winding_to t) && ts); [destruct (c_eq0 complex_ops _)|]; destruct (is_zigzag_n (tp_winding_to t) && ts); destruct fs; cbn [yff yft two_port0 c_0 c_add complex_ops];
    unfold cmul, cadd, conj, re, im in *; cbn [fst snd] in *; rewrite ?L; ring.
Qed.
Theorem C62_delta_refuted : exists (i : three_winding_in) (t1 t2 t3 : @transformer_par C), w3_w1 i = Delta /\
  (let '(i1, i2, i3) := convert_to_two_winding_transformers i in
   transformer_calc i1 1000 1000 = Some t1 /\ transformer_calc i2 1000 1000 = Some t2 /\ transformer_calc i3 1000 1000 = Some t3) /\
  exists q1 q2 q3 : two_port C, acts_as complex_ops (transformer_asym complex_ops true true t1) (equal_phases complex_ops) q1 /\
    acts_as complex_ops (transformer_asym complex_ops false true t2) (equal_phases complex_ops) q2 /\ acts_as complex_ops (transformer_asym complex_ops false true t3) (equal_phases complex_ops) q3 /\
    forall u d : C, u <> (0, 0) -> cadd (cadd (cmul (ytf q1) u) (cmul (ytt q1) d)) (cadd (cmul (ytt q2) d) (cmul (ytt q3) d)) = (0, 0) ->
    0 < re (cmul u (conj (cadd (cmul (yff q1) u) (cmul (yft q1) d)))).
Proof.
  set (i := mkThreeWindingIn 1000 1000 1000 1000000 1000000 1000000 (1 / 5) (1 / 5) (1 / 5) 0 0 0 (1 / 100) 10000 Delta WyeN WyeN 1 1 None None None None None None).
  assert (B : base_y 1000 = 1) by (rewrite base_y_eq by lra; lra).
  assert (Y : y_shunt (1 / 100) 10000 1000 1000000 = (1 / 100, 0)).
  { unfold y_shunt. assert (Q : 1 / 100 * 1000000 / 1000 / 1000 * (1 / 100 * 1000000 / 1000 / 1000) - 10000 / 1000 / 1000 * (10000 / 1000 / 1000) = 0) by field.
    rewrite Q. destruct (Rlt_dec 0 0); [lra|]. apply c_eq; unfold re, im; cbn [fst snd]; [field|reflexivity]. }
  assert (Y0 : y_shunt 0 0 1000 1000000 = (0, 0)).
  { unfold y_shunt. assert (Q : 0 * 1000000 / 1000 / 1000 * (0 * 1000000 / 1000 / 1000) - 0 / 1000 / 1000 * (0 / 1000 / 1000) = 0) by field.
    rewrite Q. destruct (Rlt_dec 0 0); [lra|]. apply c_eq; unfold re, im; cbn [fst snd]; [field|reflexivity]. }
  assert (Zs : cinv (z_series (1 / 10) 0 1000 1000000) = (0, - 10)).
  { rewrite lossless by lra. unfold cinv, norm2. apply c_eq; unfold re, im; cbn [fst snd]; field. }
  assert (Cv : convert_to_two_winding_transformers i =
    (leg 1000 1000 1000000 (1 / 10) 0 (1 / 100) 10000 WyeN WyeN 0 None None, leg 1000 1000 1000000 (1 / 10) 0 0 0 WyeN Delta 11 None None, leg 1000 1000 1000000 (1 / 10) 0 0 0 WyeN Delta 11 None None)).
  { unfold convert_to_two_winding_transformers, calculate_uk, calculate_pk, i. cbn [real_ops r_add r_sub r_mul r_div r_min r_1 w3_u1 w3_u2 w3_u3 w3_sn1 w3_sn2 w3_sn3 w3_uk12 w3_uk13 w3_uk23 w3_pk12 w3_pk13 w3_pk23
      w3_i0 w3_p0 w3_w1 w3_w2 w3_w3 w3_clock12 w3_clock13 w3_r1 w3_x1 w3_r2 w3_x2 w3_r3 w3_x3]. rewrite (Rmin_left 1000000 1000000) by lra. cbn [Z.sub Z.add Z.opp Z.pos_sub Pos.pred_double].
    f_equal; [f_equal|]; unfold leg; f_equal; field. }
  eexists i, _, _, _. split; [reflexivity|]. rewrite Cv. split.
  { rewrite !leg_calc by (reflexivity || lra). repeat split; reflexivity. }
  eexists _, _, _. refine (Logic.conj (proj2 (proj2 (transformer_sequences complex_ops complex_laws true true _ complex_rots))) (Logic.conj
    (proj2 (proj2 (transformer_sequences complex_ops complex_laws false true _ complex_rots))) (Logic.conj (proj2 (proj2 (transformer_sequences complex_ops complex_laws false true _ complex_rots))) _))).
  rewrite B, Zs, Y0, Y. replace (10000 + 0 * (1 / 100 * (1 / 100) - 1 / 100 * (1 / 100))) with 10000 by field. replace (0 + 0 * (0 * 0 - 0 * 0)) with 0 by ring. rewrite Y, Y0.
  replace (1000 / 1000 / (1000 / 1000)) with 1 by field. rewrite Rinv_1, !scale_1.
  assert (G : calculate_z_pu None None 1000 = (0, 0) /\ calculate_z_pu (Some 0) (Some 0) 1000 = (0, 0)).
  { unfold calculate_z_pu, or_else, base_power_3p. split; apply c_eq; unfold re, im; cbn [fst snd]; field. }
  rewrite (proj1 G), (proj2 G). replace (- (1 / 100000000) * 1000000 / base_power_3p / (1 / 10)) with (- (1 / 10000000)) by (unfold base_power_3p; field).
  unfold transformer_param0, transformer_param0_path. rewrite three_c.
  cbn [tp_winding_from tp_winding_to tp_y_series tp_y0_shunt tp_k tp_clock tp_z_grounding_from tp_z_grounding_to tp_low_susceptance is_wye_n is_zigzag_n is_delta andb zero_seq_available orb negb
    yff yft ytf ytt two_port0 c_add c_0 complex_ops].
  assert (F : ((map_to_cyclic_range 0 12 =? 2) || (map_to_cyclic_range 0 12 =? 6) || (map_to_cyclic_range 0 12 =? 10))%Z = false) by reflexivity. rewrite F.
  assert (S : c_div complex_ops (c_1 complex_ops) (cadd (c_div complex_ops (c_1 complex_ops) (0, -10)) (c_mul complex_ops (3, 0) (cadd (0, 0) (c_div complex_ops (c_div complex_ops (0, 0) (1, 0)) (1, 0))))) = (0, - 10)).
  { cbn [complex_ops c_div c_1 c_mul]. rewrite !div_one, !div_real by lra. unfold cinv, norm2. creal; field. }
  rewrite S.
  assert (N : c_mul complex_ops (1, 0) (c_rot complex_ops 0) = (1, 0)) by (rewrite (rl_0 complex_ops complex_rots); cbn [complex_ops c_mul c_1]; creal; ring).
  rewrite N. unfold calc_param_y_sym. cbn [negb andb yff yft ytf ytt]. rewrite half_c. cbn [complex_ops c_div c_1 c_mul c_abs c_conj c_neg c_add].
  assert (A1 : cabs (1, 0) = 1) by (apply cabs_unique; [lra|unfold norm2; simpl; ring]). rewrite A1.
  rewrite !(div_real _ 1) by lra. assert (C1 : conj (1, 0) = (1, 0)) by (unfold conj, re, im; cbn [fst snd]; f_equal; ring). rewrite C1, !(div_real _ 1) by lra.
  rewrite Rinv_1, !scale_1. intros [a b] [c d] NZ E. unfold cmul, cadd, cneg, conj, re, im in *. cbn [fst snd] in *. injection E; intros E2 E1.
  assert (P : 0 < a * a + b * b). { assert (Q : a <> 0 \/ b <> 0) by (destruct (Req_dec a 0) as [->|]; [right; intros ->; apply NZ; reflexivity|left; assumption]). destruct Q; nra. }
  match goal with |- 0 < ?x => assert (X : x = 1 / 200 * (a * a + b * b) + 1 / 200 * (c * c + d * d)) end; [|rewrite X; nra].
  clear P NZ E. apply (f_equal (Rmult c)) in E1. apply (f_equal (Rmult d)) in E2. lra.
Qed.
