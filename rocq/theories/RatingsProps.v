(** C62: branches behave as their input in ohms, farads and rated values says, in volts and amperes, whatever the rated voltages of the nodes. *)
From Coq Require Import Reals ZArith Bool List Lra Lia Field.
From Verif Require Import Common Component TwoPort TwoPortSpec TwoPortFacts TwoPortProps Taps Units UnitsFacts Ratings RatingsSpec RatingsFacts.
Import ListNotations.
Local Open Scope R_scope.

(** ** What the user is told of the voltages and currents: line voltages and totals in a symmetric calculation, values per phase in an asymmetric one *)
Theorem C62_reported : forall (u_rated : R) (u i s : C), 0 < u_rated -> s = cmul u (conj i) ->
  n_u (node_get_output symmetric u_rated u s) = sqrt 3 * cabs (volts u_rated u) /\
  b_i (side_get_output symmetric u_rated s i) = cabs (amps u_rated i) /\
  (b_p (side_get_output symmetric u_rated s i), b_q (side_get_output symmetric u_rated s i)) = cscale 3 (cmul (volts u_rated u) (conj (amps u_rated i))) /\
  n_u (node_get_output asymmetric u_rated (u, u, u) (s, s, s)) = piecewise (cabs (volts u_rated u)) /\
  b_i (side_get_output asymmetric u_rated (s, s, s) (i, i, i)) = piecewise (cabs (amps u_rated i)) /\
  (b_p (side_get_output asymmetric u_rated (s, s, s) (i, i, i)), b_q (side_get_output asymmetric u_rated (s, s, s) (i, i, i)))
    = (piecewise (re (cmul (volts u_rated u) (conj (amps u_rated i)))), piecewise (im (cmul (volts u_rated u) (conj (amps u_rated i))))).
Proof.
  intros u_rated u i s U ->. pose proof sqrt3_pos as S0. pose proof sqrt3_sq as SS.
  assert (V : cabs (volts u_rated u) = u_rated / sqrt 3 * cabs u).
  { unfold volts. apply cabs_scale. apply Rlt_le, Rdiv_lt_0_compat; assumption. }
  assert (A : cabs (amps u_rated i) = base_i u_rated * cabs i).
  { unfold amps. rewrite cabs_scale; [|apply Rlt_le, Rdiv_lt_0_compat; [lra|now apply Rmult_lt_0_compat]]. unfold base_i, base_power_3p. field. lra. }
  assert (W : cmul (volts u_rated u) (conj (amps u_rated i)) = cscale (1000000 / 3) (cmul u (conj i))).
  { unfold volts, amps. rewrite conj_scale, mul_scale. f_equal. transitivity (1000000 / (sqrt 3 * sqrt 3)); [field; lra|rewrite SS; reflexivity]. }
  rewrite W, V, A. unfold node_get_output, side_get_output, piecewise. cbn [n_u n_u_pu b_i b_p b_q vmap u_scale base_power fst snd].
  unfold base_power_1p, base_power_3p. refine (Logic.conj _ (Logic.conj _ (Logic.conj _ (Logic.conj _ (Logic.conj _ _))))).
  - change (1 * u_rated * cabs u = sqrt 3 * (u_rated / sqrt 3 * cabs u)). field. lra.
  - reflexivity.
  - rewrite scale_scale. apply c_eq; unfold cscale, re, im; cbn [fst snd]; field.
  - assert (E : / sqrt 3 * u_rated * cabs u = u_rated / sqrt 3 * cabs u) by (field; lra). rewrite E. reflexivity.
  - reflexivity.
  - unfold cscale, re, im; cbn [fst snd]. reflexivity.
Qed.

(** ** Lines: both ends have the same rated voltage, or the line is rejected *)
Theorem C62_line : forall (f u1 u2 : R) (i : line_in), 0 < u1 -> 0 < u2 ->
  (1 / 100000000 < Rabs (u1 - u2) -> line_new f u1 u2 i = None) /\
  (u1 = u2 -> exists b : branch_kind, line_new f u1 u2 i = Some b /\
    let z1 := (li_r1 i, li_x1 i) in let y1 := cscale (2 * PI * f * li_c1 i) (li_tan1 i, 1) in
    let z0 := (li_r0 i, li_x0 i) in let y0 := cscale (2 * PI * f * li_c0 i) (li_tan0 i, 1) in
    forall fs ts : bool,
    (z1 <> (0, 0) -> open_end_regular fs ts u2 z1 y1 -> forall uf ut i_f i_t : C,
      injects complex_ops (calc_param_sym complex_ops fs ts true b) uf ut i_f i_t <-> si_circuit fs ts z1 y1 (1, 0) u1 u2 uf ut i_f i_t) /\
    (exists (p : two_port mat) (q : two_port C), calc_param_asym complex_ops fs ts true b = Some p /\
      acts_as complex_ops p (positive complex_ops) (calc_param_sym complex_ops fs ts true b) /\ acts_as complex_ops p (negative complex_ops) (calc_param_sym complex_ops fs ts true b) /\
      acts_as complex_ops p (equal_phases complex_ops) q /\
      (z0 <> (0, 0) -> open_end_regular fs ts u2 z0 y0 -> forall uf ut i_f i_t : C,
        injects complex_ops q uf ut i_f i_t <-> si_circuit fs ts z0 y0 (1, 0) u1 u2 uf ut i_f i_t))).
Proof.
  intros f u1 u2 i U1 U2. unfold line_new, numerical_tolerance. split.
  { intros H. destruct (Rlt_dec (1 / 100000000) (Rabs (u1 - u2))); [reflexivity|contradiction]. }
  intros <-. destruct (Rlt_dec (1 / 100000000) (Rabs (u1 - u1))) as [H|_].
  { exfalso. replace (u1 - u1) with 0 in H by ring. rewrite Rabs_R0 in H. lra. }
  eexists. split; [reflexivity|]. cbv zeta. intros fs ts.
  assert (G : forall r x c tn, (r, x) <> ((0, 0) : C) -> open_end_regular fs ts u1 (r, x) (cscale (2 * PI * f * c) (tn, 1)) -> forall uf ut i_f i_t : C,
    injects complex_ops (calc_param_y_sym complex_ops fs ts (line_series u1 r x) (line_shunt f u1 c tn) (1, 0)) uf ut i_f i_t <->
    si_circuit fs ts (r, x) (cscale (2 * PI * f * c) (tn, 1)) (1, 0) u1 u1 uf ut i_f i_t).
  { intros r x c tn Z Hr uf ut i_f i_t.
    assert (E : line_shunt f u1 c tn = cscale (/ base_y u1) (cscale (2 * PI * f * c) (tn, 1))).
    { unfold line_shunt. rewrite scale_scale. f_equal. unfold Rdiv. ring. }
    rewrite E. unfold line_series. rewrite (si_general fs ts (r, x) (cscale (2 * PI * f * c) (tn, 1)) (1, 0) u1 u1 uf ut i_f i_t U1 U1 Z one_nz_c Hr).
    replace (u1 / u1) with 1 by (field; lra). rewrite scale_1. reflexivity. }
  split.
  - intros Z Hr uf ut i_f i_t. erewrite calc_y by reflexivity. now apply G.
  - assert (K : forall e : bool, fs || ts = e -> exists (p : two_port mat), calc_param_asym complex_ops fs ts true (KLine (line_series u1 (li_r1 i) (li_x1 i)) (line_shunt f u1 (li_c1 i) (li_tan1 i))
        (line_series u1 (li_r0 i) (li_x0 i)) (line_shunt f u1 (li_c0 i) (li_tan0 i))) = Some p /\
      acts_as complex_ops p (equal_phases complex_ops) (calc_param_y_sym complex_ops fs ts (line_series u1 (li_r0 i) (li_x0 i)) (line_shunt f u1 (li_c0 i) (li_tan0 i)) (1, 0))).
    { intros e He. unfold calc_param_asym, energized. cbn [andb]. rewrite He. destruct e.
      - eexists. split; [reflexivity|]. apply (line_sequences complex_ops complex_laws fs ts _ _ _ _ (c_1 complex_ops) complex_rots).
      - apply orb_false_iff in He as [-> ->]. eexists. split; [reflexivity|]. intros u.
        cbn [calc_param_y_sym negb andb orb yff yft ytf ytt two_port0]. refine (Logic.conj _ (Logic.conj _ (Logic.conj _ _))); intros x; unfold dotv, mat0, vscale, two_port0;
          cbn [complex_ops c_0 c_mul c_add yff yft ytf ytt]; creal; ring. }
    destruct (K _ eq_refl) as (p & Ep & H0). exists p.
    exists (calc_param_y_sym complex_ops fs ts (line_series u1 (li_r0 i) (li_x0 i)) (line_shunt f u1 (li_c0 i) (li_tan0 i)) (1, 0)).
    destruct (C26_balanced complex_ops complex_laws complex_rots _ fs ts true p Ep I) as (H1 & H2 & _).
    refine (Logic.conj Ep (Logic.conj H1 (Logic.conj H2 (Logic.conj H0 _)))). intros Z Hr uf ut i_f i_t. now apply G.
Qed.

(** ** Generic branches: parameters at the to side, a ratio on top of that of the rated voltages, and an angle, all optional *)
Lemma fmod_angle t : cexp (fmod t (2 * PI)) = cexp t.
Proof.
  apply cexp_of_same_angle. exists (- truncate (t / (2 * PI)))%Z. unfold fmod. rewrite opp_IZR. ring.
Qed.
Theorem C62_generic_branch : forall (u1 u2 : R) (i : generic_in) (fs ts : bool) (uf ut i_f i_t : C), 0 < u1 -> 0 < u2 ->
  let z := (gi_r1 i, gi_x1 i) in let y := (gi_g1 i, gi_b1 i) in
  let k := match gi_k i with Some k => k | None => 1 end in let theta := match gi_theta i with Some t => t | None => 0 end in
  z <> (0, 0) -> k <> 0 -> open_end_regular fs ts u2 z y ->
  injects complex_ops (calc_param_sym complex_ops fs ts true (generic_new u2 i)) uf ut i_f i_t <->
  si_circuit fs ts z y (cscale (k * (u1 / u2)) (cexp theta)) u1 u2 uf ut i_f i_t.
Proof.
  intros u1 u2 i fs ts uf ut i_f i_t U1 U2 z y k theta Z K Hr. erewrite calc_y by reflexivity.
  assert (E : (match gi_theta i with Some t => fmod t (2 * PI) | None => 0 end) = match gi_theta i with Some t => fmod t (2 * PI) | None => theta end) by (unfold theta; destruct (gi_theta i); reflexivity).
  assert (T : cexp (match gi_theta i with Some t => fmod t (2 * PI) | None => 0 end) = cexp theta).
  { unfold theta. destruct (gi_theta i); [apply fmod_angle|reflexivity]. }
  rewrite T. change (or_else (gi_k i) 1) with k.
  assert (N : cscale k (cexp theta) <> (0, 0)).
  { apply scale_nz; [exact K|]. intros Q. pose proof (cabs_cexp theta) as A. rewrite Q in A. unfold cabs, norm2 in A. cbn [re im fst snd] in A.
    replace (0 * 0 + 0 * 0) with 0 in A by ring. rewrite sqrt_0 in A. lra. }
  pose proof (si_general fs ts z y (cscale k (cexp theta)) u1 u2 uf ut i_f i_t U1 U2 Z N Hr) as Q.
  rewrite scale_scale, (Rmult_comm (u1 / u2) k) in Q. exact Q.
Qed.

(** ** Transformers: the short-circuit test and the no-load test of the nameplate, at the voltage of the to side at the tap position *)
Lemma clock_unit c : cexp (IZR c * (PI / 6)) <> (0, 0).
Proof.
  intros Q. pose proof (cabs_cexp (IZR c * (PI / 6))) as A. rewrite Q in A. unfold cabs, norm2 in A. cbn [re im fst snd] in A.
  replace (0 * 0 + 0 * 0) with 0 in A by ring. rewrite sqrt_0 in A. lra.
Qed.
Lemma base_y_to u : 0 < u -> base_i u * base_i u / base_power_1p = base_y u.
Proof.
  intros U. rewrite base_y_eq by exact U. unfold base_i, base_power_1p, base_power_3p. pose proof sqrt3_pos. pose proof sqrt3_sq as SS.
  transitivity (3 * 1000000 / (sqrt 3 * sqrt 3) / (u * u)); [field; lra|rewrite SS; field; lra].
Qed.
Lemma short_circuit_nz uk pk sn u z : uk <> 0 -> 0 < u -> short_circuit_test uk pk sn u z -> z <> (0, 0).
Proof.
  intros K U (H & _) ->. replace (cabs (0, 0)) with 0 in H.
  - rewrite Rmult_0_l, Rmult_0_r in H. symmetry in H. apply Rmult_integral in H as [H|H]; [|lra]. revert H. now apply Rabs_no_R0.
  - symmetry. apply cabs_unique; [lra|]. unfold norm2; simpl; ring.
Qed.
(** of a transformer with nonnegative uk, pk, p0: nothing can resonate *)
Lemma inductive_regular z y : z <> (0, 0) -> 0 <= re z -> 0 <= im z -> 0 <= re y -> im y <= 0 -> cadd y (cscale 2 (cinv z)) <> (0, 0).
Proof.
  intros Z R0 X0 G B E. pose proof (norm2_pos z Z) as N. apply Z. unfold cadd, cscale, cinv in E. cbn [re im fst snd] in E. injection E; intros E2 E1.
  fold (re z) (im z) (re y) (im y) in *. pose proof (Rinv_0_lt_compat _ N) as P. unfold Rdiv in *.
  assert (re z * / norm2 z >= 0) by (apply Rle_ge, Rmult_le_pos; lra). assert (im z * / norm2 z >= 0) by (apply Rle_ge, Rmult_le_pos; lra).
  assert (A : re z * / norm2 z = 0) by lra. assert (D : im z * / norm2 z = 0) by lra.
  apply Rmult_integral in A as [A|A]; [|lra]. apply Rmult_integral in D as [D|D]; [|lra]. destruct z; unfold re, im in *; cbn [fst snd] in *. now subst.
Qed.
Theorem C62_transformer : forall (i : transformer_in) (t : taps) (clock : Z) (u1_rated u2_rated : R),
  transformer_new (tr_taps i) (tr_clock i) (tr_from i) (tr_to i) = Some (t, clock) ->
  0 < u1_rated -> 0 < u2_rated -> 0 < tr_sn i ->
  let '(u1, u2) := if tr_tap_at_from i then (tap_voltage real_ops t (tr_u1 i) (tr_tap_size i), tr_u2 i) else (tr_u1 i, tap_voltage real_ops t (tr_u2 i) (tr_tap_size i)) in
  let at_tap x x_min x_max := adjust real_ops t x (match x_min with Some v => v | None => x end) (match x_max with Some v => v | None => x end) in
  let uk := at_tap (tr_uk i) (tr_uk_min i) (tr_uk_max i) in let pk := at_tap (tr_pk i) (tr_pk_min i) (tr_pk_max i) in
  0 < u1 -> 0 < u2 -> uk <> 0 -> Rabs pk <= Rabs uk * tr_sn i -> 0 <= tr_i0 i -> Rabs (tr_p0 i) <= tr_i0 i * tr_sn i ->
  exists (par : transformer_par) (z y : C), transformer_calc i u1_rated u2_rated = Some par /\
    short_circuit_test uk pk (tr_sn i) u2 z /\ no_load_test (tr_i0 i) (tr_p0 i) (tr_sn i) u2 y /\
    let phase_shift n := cscale (u1 / u2) (cexp (IZR n * (PI / 6))) in
    forall fs ts : bool, open_end_regular fs ts u2_rated z y ->
    (forall uf ut i_f i_t : C,
      injects complex_ops (calc_param_sym complex_ops fs ts true (KTransformer par)) uf ut i_f i_t <-> si_circuit fs ts z y (phase_shift clock) u1_rated u2_rated uf ut i_f i_t) /\
    exists (p : two_port mat) (q : two_port C), calc_param_asym complex_ops fs ts true (KTransformer par) = Some p /\
      acts_as complex_ops p (positive complex_ops) (calc_param_sym complex_ops fs ts true (KTransformer par)) /\
      acts_as complex_ops p (negative complex_ops) q /\
      forall uf ut i_f i_t : C, injects complex_ops q uf ut i_f i_t <-> si_circuit fs ts z y (phase_shift (- clock)%Z) u1_rated u2_rated uf ut i_f i_t.
Proof.
  intros i t clock u1r u2r Et U1r U2r SN. fold (tap_voltages t i). destruct (tap_voltages t i) as [u1 u2] eqn:Ev.
  cbv beta zeta. fold (or_else (tr_uk_min i) (tr_uk i)) (or_else (tr_uk_max i) (tr_uk i)) (or_else (tr_pk_min i) (tr_pk i)) (or_else (tr_pk_max i) (tr_pk i)).
  set (uk := adjust real_ops t (tr_uk i) (or_else (tr_uk_min i) (tr_uk i)) (or_else (tr_uk_max i) (tr_uk i))).
  set (pk := adjust real_ops t (tr_pk i) (or_else (tr_pk_min i) (tr_pk i)) (or_else (tr_pk_max i) (tr_pk i))).
  intros U1 U2 K HP I0 H0.
  exists (transformer_at t clock i u1r u2r), (z_series uk pk u2 (tr_sn i)), (y_shunt (tr_i0 i) (tr_p0 i) u2 (tr_sn i)).
  split. { unfold transformer_calc. rewrite Et. reflexivity. }
  pose proof (z_series_test uk pk u2 (tr_sn i) U2 SN HP) as TZ. pose proof (y_shunt_test (tr_i0 i) (tr_p0 i) u2 (tr_sn i) U2 SN I0 H0) as TY.
  refine (Logic.conj TZ (Logic.conj TY _)). intros fs ts Hr.
  pose proof (short_circuit_nz _ _ _ _ _ K U2 TZ) as Z.
  assert (RT : u1r / u2r <> 0) by (apply Rgt_not_eq, Rdiv_lt_0_compat; assumption).
  assert (KN : u1 / u2 / (u1r / u2r) <> 0) by (apply Rgt_not_eq, Rdiv_lt_0_compat; apply Rdiv_lt_0_compat; assumption).
  assert (G : forall n, forall uf ut i_f i_t : C, injects complex_ops (calc_param_y_sym complex_ops fs ts (tp_y_series (transformer_at t clock i u1r u2r)) (tp_y_shunt (transformer_at t clock i u1r u2r))
      (c_mul complex_ops (tp_k (transformer_at t clock i u1r u2r)) (c_rot complex_ops n))) uf ut i_f i_t <->
    si_circuit fs ts (z_series uk pk u2 (tr_sn i)) (y_shunt (tr_i0 i) (tr_p0 i) u2 (tr_sn i)) (cscale (u1 / u2) (cexp (IZR n * (PI / 6)))) u1r u2r uf ut i_f i_t).
  { intros n uf ut i_f i_t. unfold transformer_at. rewrite Ev. cbn [tp_y_series tp_y_shunt tp_k]. cbv zeta. fold uk pk. rewrite (base_y_to u2r U2r).
    assert (E : c_mul complex_ops (u1 / u2 / (u1r / u2r), 0) (c_rot complex_ops n) = cscale (u1 / u2 / (u1r / u2r)) (cexp (IZR n * (PI / 6)))).
    { cbn [complex_ops c_mul c_rot]. creal; ring. }
    pose proof (scale_nz _ _ KN (clock_unit n)) as N.
    rewrite E, (si_general fs ts _ _ _ u1r u2r uf ut i_f i_t U1r U2r Z N Hr).
    rewrite scale_scale. replace (u1r / u2r * (u1 / u2 / (u1r / u2r))) with (u1 / u2) by (field; lra). reflexivity. }
  split.
  - intros uf ut i_f i_t. erewrite calc_y by reflexivity. rewrite <- (G clock uf ut i_f i_t).
    assert (E : tp_clock (transformer_at t clock i u1r u2r) = clock) by (unfold transformer_at; rewrite Ev; reflexivity). rewrite E. reflexivity.
  - assert (E : exists p, calc_param_asym complex_ops fs ts true (KTransformer (transformer_at t clock i u1r u2r)) = Some p).
    { unfold calc_param_asym. destruct (energized fs ts true); eexists; reflexivity. }
    destruct E as [p Ep]. destruct (C26_balanced complex_ops complex_laws complex_rots _ fs ts true p Ep I) as (H1 & H2 & _).
    eexists p, _. refine (Logic.conj Ep (Logic.conj H1 (Logic.conj H2 _))). intros uf ut i_f i_t. erewrite calc_y by reflexivity. rewrite <- (G (- clock)%Z uf ut i_f i_t).
    assert (E : tp_clock (transformer_at t clock i u1r u2r) = clock) by (unfold transformer_at; rewrite Ev; reflexivity). rewrite E. reflexivity.
Qed.
