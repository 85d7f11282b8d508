(** Facts for C62. *)
From Coq Require Import Reals ZArith Bool List Lra Lia Field.
From Verif Require Import Common Component TwoPort TwoPortSpec TwoPortFacts Taps Units UnitsFacts Ratings RatingsSpec.
Import ListNotations.
Local Open Scope R_scope.

Lemma c_eq (a b : C) : re a = re b -> im a = im b -> a = b.
Proof. destruct a, b; simpl; intros -> ->; reflexivity. Qed.
Lemma c_nz (z : C) : z <> (0, 0) -> re z * re z + im z * im z <> 0.
Proof. intros H. pose proof (norm2_pos z H). unfold norm2 in *. lra. Qed.
Ltac creal := apply c_eq; unfold cadd, csub, cmul, cneg, cscale, conj, re, im; cbn [fst snd].

Lemma complex_field : field_theory ((0, 0) : C) (1, 0) cadd cmul csub cneg cdiv cinv eq.
Proof.
  constructor.
  - constructor; intros; creal; ring.
  - intros H. injection H. lra.
  - reflexivity.
  - intros p Hp. rewrite cmul_comm. apply cinv_mul, Hp.
Qed.
Lemma complex_laws : cx_laws complex_ops.
Proof.
  constructor; cbn [complex_ops c_0 c_1 c_add c_mul c_conj c_small c_eq0].
  - exact complex_field.
  - intros; creal; ring.
  - intros; creal; ring.
  - intros; apply conj_conj.
  - intros H. injection H. lra.
  - intros H. injection H. lra.
  - unfold is_below_tolerance. replace (cabs (0, 0)) with 0.
    + destruct (Rlt_dec 0 numerical_tolerance) as [|N]; [reflexivity|]. exfalso. apply N. unfold numerical_tolerance. lra.
    + symmetry. apply cabs_unique; [lra|]. unfold norm2; simpl; ring.
  - intros [x y]. unfold c_is_zero, re, im; cbn [fst snd]. destruct (Req_EM_T x 0) as [->|N], (Req_EM_T y 0) as [->|M]; split; intros H; try reflexivity; try discriminate;
      injection H; intros; subst; contradiction.
Qed.
Lemma cexp0 : cexp 0 = (1, 0). Proof. unfold cexp. rewrite cos_0, sin_0. reflexivity. Qed.
Lemma complex_rots : rot_laws complex_ops.
Proof.
  constructor; cbn [complex_ops c_0 c_1 c_add c_mul c_conj c_rot c_neg].
  - rewrite Rmult_0_l. apply cexp0.
  - intros m n. rewrite <- cexp_plus, plus_IZR. f_equal. ring.
  - replace (6 * (PI / 6)) with PI by field. unfold cexp. rewrite cos_PI, sin_PI. creal; ring.
  - replace (12 * (PI / 6)) with (2 * PI) by field. unfold cexp. rewrite cos_2PI, sin_2PI. reflexivity.
  - intros n. rewrite <- cexp_neg, opp_IZR. f_equal. ring.
  - replace (4 * (PI / 6)) with (2 * (PI / 3)) by field. replace (8 * (PI / 6)) with (2 * PI - 2 * (PI / 3)) by field.
    unfold cexp. rewrite cos_minus, sin_minus, cos_2PI, sin_2PI.
    assert (E1 : cos (2 * (PI / 3)) = - 1 / 2) by apply cos_2PI3. rewrite E1. creal; lra.
Qed.
Lemma complex_ratio (n : C) : n <> (0, 0) -> ratio_ok complex_ops n.
Proof.
  intros H. split; [exact H|]. cbn [complex_ops c_abs c_mul c_conj]. creal; [|ring]. fold (re n) (im n).
  rewrite Rmult_0_l, Rminus_0_r, cabs_sq. unfold norm2. ring.
Qed.

(** ** Closed at both sides, or with a shunt admittance that is not cut off *)
Lemma two_port_any (fs ts : bool) (ys ysh n uf ut i_f i_t : C) : ys <> (0, 0) -> n <> (0, 0) ->
  (fs && ts = true \/ (cadd ysh (cscale 2 ys) <> (0, 0) /\ (ysh = (0, 0) \/ numerical_tolerance <= cabs ysh))) ->
  injects complex_ops (calc_param_y_sym complex_ops fs ts ys ysh n) uf ut i_f i_t <-> pi_circuit complex_ops fs ts ys ysh n uf ut i_f i_t.
Proof.
  intros Hy Hn H. destruct (fs && ts) eqn:E.
  - apply andb_true_iff in E as [-> ->]. rewrite (closed_both complex_ops complex_laws ys ysh n uf ut i_f i_t (complex_ratio n Hn)).
    rewrite <- (inv_abs2 complex_ops complex_laws n _ (complex_ratio n Hn)). reflexivity.
  - destruct H as [H|[H1 H2]]; [discriminate|]. apply (sym_two_port complex_ops complex_laws).
    refine (Logic.conj Hy (Logic.conj _ (Logic.conj _ (complex_ratio n Hn)))).
    + intros Q. apply H1. transitivity (c_add complex_ops ysh (c_mul complex_ops (two complex_ops) ys)); [|exact Q].
      unfold two. cbn [complex_ops c_add c_mul c_1]. creal; ring.
    + destruct H2 as [H2|H2]; [left; exact H2|right].
      cbn [complex_ops c_small]. unfold is_below_tolerance. destruct (Rlt_dec (cabs ysh) numerical_tolerance); [lra|reflexivity].
Qed.

(** ** Scaling a circuit *)
Lemma two_c : two complex_ops = (2, 0). Proof. unfold two. cbn [complex_ops c_add c_1]. creal; ring. Qed.
Lemma conj_scale k z : conj (cscale k z) = cscale k (conj z). Proof. creal; ring. Qed.
Lemma mul_scale k l a b : cmul (cscale k a) (cscale l b) = cscale (k * l) (cmul a b). Proof. creal; ring. Qed.
Lemma mul_scale_r k a b : cmul a (cscale k b) = cscale k (cmul a b). Proof. creal; ring. Qed.
Lemma scale_add k a b : cscale k (cadd a b) = cadd (cscale k a) (cscale k b). Proof. creal; ring. Qed.
Lemma scale_sub k a b : cscale k (csub a b) = csub (cscale k a) (cscale k b). Proof. creal; ring. Qed.
Lemma scale_scale k l a : cscale k (cscale l a) = cscale (k * l) a. Proof. creal; ring. Qed.
Lemma scale_1 a : cscale 1 a = a. Proof. creal; ring. Qed.
Lemma scale_0 k : cscale k (0, 0) = (0, 0). Proof. creal; ring. Qed.
Lemma scale_nz k a : k <> 0 -> a <> (0, 0) -> cscale k a <> (0, 0).
Proof. intros K A E. apply A. apply (cscale_inj k); [exact K|]. rewrite E, scale_0. reflexivity. Qed.
Lemma circuit_scaled fs ts ys ysh n uf ut i_f i_t (b v r a : R) : a * r = b * v ->
  pi_circuit complex_ops fs ts ys ysh n uf ut i_f i_t ->
  pi_circuit complex_ops fs ts (cscale b ys) (cscale b ysh) (cscale r n) (cscale (r * v) uf) (cscale v ut) (cscale a i_f) (cscale (b * v) i_t).
Proof.
  intros E (w & x & i1 & i2 & E1 & E2 & F & T). exists (cscale v w), (cscale v x), (cscale (b * v) i1), (cscale (b * v) i2).
  rewrite two_c in *. cbn [complex_ops c_mul c_add c_sub c_conj c_0] in *.
  refine (Logic.conj _ (Logic.conj _ (Logic.conj _ _))).
  - rewrite mul_scale_r, E1, <- !scale_sub, mul_scale, scale_add. f_equal. creal; ring.
  - rewrite mul_scale_r, E2, <- !scale_sub, mul_scale, scale_add. f_equal. creal; ring.
  - destruct fs; destruct F as [-> ->].
    + rewrite conj_scale, !mul_scale. split; f_equal. rewrite <- E. ring.
    + rewrite !scale_0. split; reflexivity.
  - destruct ts; destruct T as [-> ->]; rewrite ?scale_0; split; reflexivity.
Qed.
Lemma circuit_scaling fs ts ys ysh n uf ut i_f i_t (b v r a : R) : a * r = b * v -> b <> 0 -> v <> 0 -> r <> 0 ->
  pi_circuit complex_ops fs ts ys ysh n uf ut i_f i_t <->
  pi_circuit complex_ops fs ts (cscale b ys) (cscale b ysh) (cscale r n) (cscale (r * v) uf) (cscale v ut) (cscale a i_f) (cscale (b * v) i_t).
Proof.
  intros E B V Rr. assert (A : a <> 0).
  { intros ->. rewrite Rmult_0_l in E. symmetry in E. apply Rmult_integral in E. tauto. }
  split; [now apply circuit_scaled|]. intros H.
  assert (E' : / a * / r = / b * / v) by (rewrite <- !Rinv_mult, E; reflexivity).
  pose proof (circuit_scaled _ _ _ _ _ _ _ _ _ (/ b) (/ v) (/ r) (/ a) E' H) as Q. rewrite !scale_scale in Q.
  replace (/ b * b) with 1 in Q by (field; exact B). replace (/ r * r) with 1 in Q by (field; exact Rr). replace (/ v * v) with 1 in Q by (field; exact V).
  replace (/ r * / v * (r * v)) with 1 in Q by (field; auto). replace (/ a * a) with 1 in Q by (field; exact A). replace (/ b * / v * (b * v)) with 1 in Q by (field; auto).
  rewrite !scale_1 in Q. exact Q.
Qed.
Lemma sqrt3_nz : sqrt 3 <> 0. Proof. pose proof sqrt3_pos. lra. Qed.
Lemma base_y_eq u : 0 < u -> base_y u = 1000000 / (u * u).
Proof.
  intros U. unfold base_y, base_i, base_power_3p. pose proof sqrt3_nz. field; lra.
Qed.
Lemma base_y_pos u : 0 < u -> 0 < base_y u.
Proof. intros U. rewrite base_y_eq by exact U. apply Rdiv_lt_0_compat; [lra|]. now apply Rmult_lt_0_compat. Qed.
(** from per unit to volts and amperes *)
Lemma circuit_si fs ts ys ysh n u1 u2 uf ut i_f i_t : 0 < u1 -> 0 < u2 ->
  pi_circuit complex_ops fs ts ys ysh n uf ut i_f i_t <->
  pi_circuit complex_ops fs ts (cscale (base_y u2) ys) (cscale (base_y u2) ysh) (cscale (u1 / u2) n) (volts u1 uf) (volts u2 ut) (amps u1 i_f) (amps u2 i_t).
Proof.
  intros U1 U2. pose proof sqrt3_nz as S0. pose proof sqrt3_sq as SS. pose proof (base_y_eq u2 U2) as B. pose proof (base_y_pos u2 U2) as BP.
  rewrite (circuit_scaling fs ts ys ysh n uf ut i_f i_t (base_y u2) (u2 / sqrt 3) (u1 / u2) (1000000 / (sqrt 3 * u1))).
  - unfold volts, amps. replace (u1 / u2 * (u2 / sqrt 3)) with (u1 / sqrt 3) by (field; lra).
    replace (base_y u2 * (u2 / sqrt 3)) with (1000000 / (sqrt 3 * u2)) by (rewrite B; field; lra). reflexivity.
  - rewrite B. field. lra.
  - lra.
  - apply Rmult_integral_contrapositive_currified; [lra|]. apply Rinv_neq_0_compat. exact S0.
  - apply Rmult_integral_contrapositive_currified; [lra|]. apply Rinv_neq_0_compat. lra.
Qed.

Lemma inv_nz z : z <> (0, 0) -> cinv z <> (0, 0).
Proof.
  intros H E. pose proof (cinv_mul z H) as Q. rewrite E in Q. apply (f_equal re) in Q. unfold cmul, re, im in Q. cbn [fst snd] in Q. lra.
Qed.
Lemma si_general fs ts z y n u1 u2 uf ut i_f i_t : 0 < u1 -> 0 < u2 -> z <> (0, 0) -> n <> (0, 0) -> open_end_regular fs ts u2 z y ->
  injects complex_ops (calc_param_y_sym complex_ops fs ts (cscale (/ base_y u2) (cinv z)) (cscale (/ base_y u2) y) n) uf ut i_f i_t <->
  si_circuit fs ts z y (cscale (u1 / u2) n) u1 u2 uf ut i_f i_t.
Proof.
  intros U1 U2 Z N H. pose proof (base_y_pos u2 U2) as B. pose proof (Rinv_0_lt_compat _ B) as B'.
  rewrite two_port_any; [|apply scale_nz; [lra|now apply inv_nz]|exact N|].
  - rewrite (circuit_si fs ts _ _ n u1 u2 uf ut i_f i_t U1 U2). unfold si_circuit. rewrite !scale_scale.
    replace (base_y u2 * / base_y u2) with 1 by (field; lra). rewrite !scale_1. reflexivity.
  - destruct H as [H|[H1 H2]]; [left; exact H|right]. split.
    + rewrite scale_scale, Rmult_comm, <- scale_scale, <- scale_add. apply scale_nz; [lra|exact H2].
    + destruct H1 as [->|H1]; [left; apply scale_0|right]. rewrite cabs_scale by lra. rewrite <- base_y_eq in H1 by exact U2.
      unfold numerical_tolerance. apply (Rmult_le_reg_l (base_y u2)); [exact B|].
      replace (base_y u2 * (/ base_y u2 * cabs y)) with (cabs y) by (field; lra). lra.
Qed.
Lemma one_nz_c : (1, 0) <> ((0, 0) : C). Proof. intros E. injection E. lra. Qed.
Lemma calc_energized fs ts b : calc_param_sym complex_ops fs ts true b = sym_calc_param complex_ops fs ts b \/ (fs = false /\ ts = false).
Proof. unfold calc_param_sym, energized. destruct fs, ts; auto. Qed.
Lemma calc_y fs ts ys ysh n b : sym_calc_param complex_ops fs ts b = calc_param_y_sym complex_ops fs ts ys ysh n ->
  calc_param_sym complex_ops fs ts true b = calc_param_y_sym complex_ops fs ts ys ysh n.
Proof. intros E. unfold calc_param_sym, energized. destruct fs, ts; exact E || reflexivity. Qed.

(** ** The nameplate *)
Lemma z_series_test uk pk u sn : 0 < u -> 0 < sn -> Rabs pk <= Rabs uk * sn -> short_circuit_test uk pk sn u (z_series uk pk u sn).
Proof.
  intros U SN H. unfold short_circuit_test, z_series, rated_current. pose proof sqrt3_pos as S0. pose proof sqrt3_sq as SS.
  set (za := Rabs uk * u * u / sn). set (r := pk * u * u / sn / sn). pose proof (Rabs_pos uk) as AU.
  assert (Q : 0 <= u * u / sn) by (apply Rlt_le, Rdiv_lt_0_compat; [now apply Rmult_lt_0_compat|exact SN]).
  assert (ZA : 0 <= za) by (unfold za; replace (Rabs uk * u * u / sn) with (Rabs uk * (u * u / sn)) by (field; lra); now apply Rmult_le_pos).
  assert (RA : Rabs r <= za).
  { unfold r, za. replace (pk * u * u / sn / sn) with (pk * (u * u / sn) * / sn) by (field; lra). rewrite !Rabs_mult, (Rabs_right (u * u / sn)), (Rabs_right (/ sn)) by
      first [lra|apply Rle_ge, Rlt_le, Rinv_0_lt_compat; exact SN].
    apply (Rmult_le_reg_r sn); [exact SN|]. replace (Rabs pk * (u * u / sn) * / sn * sn) with (Rabs pk * (u * u / sn)) by (field; lra).
    replace (Rabs uk * u * u / sn * sn) with (Rabs uk * sn * (u * u / sn)) by (field; lra). now apply Rmult_le_compat_r. }
  assert (X : 0 <= za * za - r * r).
  { assert (r * r = Rabs r * Rabs r) by (unfold Rabs; destruct (Rcase_abs r); ring). pose proof (Rabs_pos r). nra. }
  set (sg := if Rle_dec 0 uk then 1 else -1). assert (SG : sg * sg = 1) by (unfold sg; destruct (Rle_dec 0 uk); ring).
  set (x := if Rlt_dec 0 (za * za - r * r) then sqrt (za * za - r * r) else 0).
  assert (XX : x * x = za * za - r * r) by (unfold x; destruct (Rlt_dec 0 (za * za - r * r)); [apply sqrt_sqrt; exact X|lra]).
  assert (X0 : 0 <= x) by (unfold x; destruct (Rlt_dec 0 (za * za - r * r)); [apply sqrt_pos|lra]).
  assert (CZ : cabs (r, sg * x) = za).
  { apply cabs_unique; [exact ZA|]. unfold norm2, re, im; cbn [fst snd]. replace (sg * x * (sg * x)) with ((sg * sg) * (x * x)) by ring. rewrite SG, XX. ring. }
  fold za r. cbv zeta. fold sg x. rewrite CZ. cbn [re im fst snd].
  refine (Logic.conj _ (Logic.conj _ (Logic.conj _ _))).
  - unfold za. field. lra.
  - unfold r. transitivity (3 * pk / (sqrt 3 * sqrt 3)); [field; lra|rewrite SS; field].
  - intros K. unfold sg, im; cbn [fst snd]. destruct (Rle_dec 0 uk); [lra|contradiction].
  - intros K. unfold im; cbn [fst snd]. destruct (Req_EM_T uk 0) as [->|N].
    + assert (x * x <= 0). { rewrite XX. unfold za. rewrite Rabs_R0. replace (0 * u * u / sn * (0 * u * u / sn)) with 0 by (field; lra). nra. }
      assert (x = 0) by nra. rewrite H1. lra.
    + unfold sg. destruct (Rle_dec 0 uk); [lra|nra].
Qed.
Lemma y_shunt_test i0 p0 u sn : 0 < u -> 0 < sn -> 0 <= i0 -> Rabs p0 <= i0 * sn -> no_load_test i0 p0 sn u (y_shunt i0 p0 u sn).
Proof.
  intros U SN I0 H. unfold no_load_test, y_shunt, rated_current. pose proof sqrt3_pos as S0. pose proof sqrt3_sq as SS.
  set (ya := i0 * sn / u / u). set (g := p0 / u / u).
  assert (Q : 0 < / (u * u)) by (apply Rinv_0_lt_compat; now apply Rmult_lt_0_compat).
  assert (YE : ya = i0 * sn * / (u * u)) by (unfold ya; field; lra). assert (GE : g = p0 * / (u * u)) by (unfold g; field; lra).
  assert (YA : 0 <= ya) by (rewrite YE; apply Rmult_le_pos; [apply Rmult_le_pos; lra|lra]).
  assert (GA : Rabs g <= ya) by (rewrite GE, YE, Rabs_mult, (Rabs_right (/ (u * u))) by lra; apply Rmult_le_compat_r; lra).
  assert (X : 0 <= ya * ya - g * g).
  { assert (g * g = Rabs g * Rabs g) by (unfold Rabs; destruct (Rcase_abs g); ring). pose proof (Rabs_pos g). nra. }
  set (x := if Rlt_dec 0 (ya * ya - g * g) then - sqrt (ya * ya - g * g) else 0).
  assert (XX : x * x = ya * ya - g * g).
  { unfold x. destruct (Rlt_dec 0 (ya * ya - g * g)); [|lra]. rewrite <- (sqrt_sqrt (ya * ya - g * g)) at 3 by exact X. ring. }
  cbv zeta. fold x. cbn [re im fst snd].
  refine (Logic.conj _ (Logic.conj _ _)).
  - replace (cabs (g, x)) with ya; [unfold ya; transitivity (i0 * sn / u / sqrt 3); field; lra|].
    symmetry. apply cabs_unique; [exact YA|]. unfold norm2, re, im; cbn [fst snd]. rewrite XX. ring.
  - unfold re; cbn [fst]. rewrite GE. transitivity (3 * p0 / (sqrt 3 * sqrt 3)); [field; lra|rewrite SS; field].
  - unfold x, im; cbn [snd]. destruct (Rlt_dec 0 (ya * ya - g * g)); [pose proof (sqrt_pos (ya * ya - g * g)); lra|lra].
Qed.
