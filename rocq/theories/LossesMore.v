(** C63 continued: three-winding transformers, lines with a matrix of impedances in symmetric calculations, shunts, and whole grids. *)
From Coq Require Import Reals ZArith Bool List Lra Lia Field Psatz.
From Verif Require Import Common Component TwoPort TwoPortSpec TwoPortFacts TwoPortProps Taps Units UnitsFacts UnitsProps Ratings RatingsSpec RatingsFacts RatingsProps RatingsZero RatingsThree LossesSpec LossesFacts LossesProps.
Import ListNotations.
Local Open Scope R_scope.

(** ** Three-winding transformers: losses of the three legs that are not negative. The losses of the pairs of windings do not suffice: with two pairs without losses and the third with some, the losses
    of one leg are negative, in the circuit as in the calculation. *)
Lemma leg_passive u1 u2 sn uk pk i0 p0 from to clock r x u1r u2r par : transformer_calc (leg u1 u2 sn uk pk i0 p0 from to clock r x) u1r u2r = Some par ->
  0 < u1r -> 0 < u2r -> sn <> 0 -> u1 <> 0 -> u2 <> 0 -> 0 <= pk -> 0 <= p0 -> 0 <= (match r with Some v => v | None => 0 end) -> never_generates (KTransformer par).
Proof.
  unfold transformer_calc. cbn [tr_taps tr_clock tr_from tr_to leg]. destruct (transformer_new _ clock from to) as [[t c]|] eqn:E; [|discriminate]. intros [= <-] U1r U2r SN U1 U2 PK P0 RF.
  assert (t = taps_new (mkTapsIn 0 0 0 0)) as -> by (unfold transformer_new in E; destruct (is_valid_clock _ _ _); [now injection E|discriminate]).
  pose proof (C63_transformer (taps_new (mkTapsIn 0 0 0 0)) c (leg u1 u2 sn uk pk i0 p0 from to clock r x) u1r u2r U1r U2r SN) as H. cbn [leg tr_tap_at_from tr_u1 tr_u2 tr_tap_size tr_pk tr_pk_min tr_pk_max tr_p0 tr_p0_zero tr_i0_zero tr_i0 tr_r_from tr_r_to] in H.
  assert (T : tap_voltage real_ops (taps_new (mkTapsIn 0 0 0 0)) u1 0 = u1) by (unfold tap_voltage; cbn [real_ops r_add r_mul r_z]; ring).
  rewrite T in H. apply H; auto; [|lra]. replace (p0 + pk * (i0 * i0 - i0 * i0)) with p0 by ring. exact P0.
Qed.
Theorem C63_three_winding : forall (i : three_winding_in) (u1_rated u2_rated u3_rated : R) (p1 p2 p3 : transformer_par),
  0 < w3_u1 i -> 0 < w3_u2 i -> 0 < w3_u3 i -> 0 < u1_rated -> 0 < u2_rated -> 0 < u3_rated -> 0 < w3_sn1 i -> 0 < w3_sn2 i -> 0 < w3_sn3 i ->
  (let '(t1, t2, t3) := convert_to_two_winding_transformers i in
   transformer_calc t1 u1_rated u1_rated = Some p1 /\ transformer_calc t2 u2_rated u1_rated = Some p2 /\ transformer_calc t3 u3_rated u1_rated = Some p3 /\
   0 <= tr_pk t1 /\ 0 <= tr_pk t2 /\ 0 <= tr_pk t3) -> 0 <= w3_p0 i ->
  let given x := match x with Some v => v | None => 0 end in 0 <= given (w3_r1 i) -> 0 <= given (w3_r2 i) -> 0 <= given (w3_r3 i) ->
  forall (s1 s2 s3 src : bool), Forall passive (branch3_calc_param_sym complex_ops s1 s2 s3 src p1 p2 p3) /\ Forall passive3 (branch3_calc_param_asym complex_ops s1 s2 s3 src p1 p2 p3).
Proof.
  intros i u1r u2r u3r p1 p2 p3 U1 U2 U3 R1 R2 R3 S1 S2 S3 H P0 given G1 G2 G3. unfold convert_to_two_winding_transformers in H.
  destruct (calculate_uk real_ops (w3_sn1 i) (w3_sn2 i) (w3_sn3 i) (w3_uk12 i) (w3_uk13 i) (w3_uk23 i)) as [[k1 k2] k3].
  destruct (calculate_pk real_ops (w3_sn1 i) (w3_sn2 i) (w3_sn3 i) (w3_pk12 i) (w3_pk13 i) (w3_pk23 i)) as [[l1 l2] l3].
  destruct H as (E1 & E2 & E3 & L1 & L2 & L3). cbn [tr_pk leg] in L1, L2, L3.
  assert (N1 : never_generates (KTransformer p1)) by (apply (leg_passive _ _ _ _ _ _ _ _ _ _ _ _ _ _ _ E1); auto; lra).
  assert (N2 : never_generates (KTransformer p2)) by (apply (leg_passive _ _ _ _ _ _ _ _ _ _ _ _ _ _ _ E2); auto; lra).
  assert (N3 : never_generates (KTransformer p3)) by (apply (leg_passive _ _ _ _ _ _ _ _ _ _ _ _ _ _ _ E3); auto; lra).
  assert (A : forall s p, never_generates (KTransformer p) -> passive3 (transformer_asym complex_ops s true p)).
  { intros s p N. apply (proj2 (N s true true)). unfold calc_param_asym, energized. rewrite orb_true_r. reflexivity. }
  intros s1 s2 s3 src. unfold branch3_calc_param_sym, branch3_calc_param_asym. destruct (src && (s1 || s2 || s3)).
  - split; repeat apply Forall_cons; try apply Forall_nil; try (apply A; assumption); [apply (N1 s1 true true)|apply (N2 s2 true true)|apply (N3 s3 true true)].
  - split; repeat apply Forall_cons; try apply Forall_nil; try apply passive_0; apply passive3_diagonal; apply pm_0.
Qed.

(** ** Lines with a matrix of impedances in symmetric calculations: conductors a and b alike in themselves and towards c and the neutral. Otherwise the average of the couplings, that takes the one
    between b and c twice and leaves out the one from a to c, can exceed the average of the diagonal. *)
Lemma some_eq {A} (a b : A) : Some a = Some b -> b = a. Proof. congruence. Qed.
Definition alike (t : tri) : Prop := t_aa t = t_bb t /\ t_ca t = t_cb t.
Lemma three_inv z : cdiv z (3, 0) = cscale (/ 3) z. Proof. rewrite real_div. creal; ring. Qed.
Lemma average_nonneg (m : @mat C) : passive_matrix m -> m PhA PhC = m PhB PhC ->
  0 <= re (c_sub complex_ops (average_of_diagonal_of_matrix complex_ops m) (average_of_off_diagonal_of_matrix complex_ops m)).
Proof.
  intros H E. set (d := fun p q : phase => fun x : phase => if phase_eqb x p then (1, 0) else if phase_eqb x q then (-1, 0) else (0, 0) : C).
  pose proof (H (d PhA PhB)) as H1. pose proof (H (d PhA PhC)) as H2. pose proof (H (d PhB PhC)) as H3.
  unfold d, active3, active, dotv in H1, H2, H3. cbn [phase_eqb complex_ops c_add c_mul] in H1, H2, H3.
  unfold average_of_diagonal_of_matrix, average_of_off_diagonal_of_matrix. rewrite three_c, two_c. cbn [complex_ops c_add c_sub c_mul c_div].
  replace (cmul (2, 0) (3, 0)) with (6, 0) by (creal; ring). rewrite !real_div. rewrite E in *.
  generalize dependent (m PhA PhA). intros aa. generalize dependent (m PhB PhB). intros bb. generalize dependent (m PhC PhC). intros cc. generalize dependent (m PhA PhB). intros ab.
  generalize dependent (m PhB PhA). intros ba. generalize dependent (m PhC PhA). intros ca. generalize dependent (m PhC PhB). intros cb. intros. generalize dependent (m PhB PhC). intros bc. intros.
  destruct aa, bb, cc, ab, ba, ca, cb, bc. unfold cadd, csub, cmul, cscale, conj, re, im in *; cbn [fst snd] in *. lra.
Qed.
Theorem C63_asym_line_symmetric : forall (f u1 u2 : R) (s : series_in) (c : capacitance_in) (b : branch_kind), asym_line_new f u1 u2 s c = Some b -> 0 < u1 -> dissipative_series s ->
  (match s with three_wires r x => alike r /\ alike x | four_wires r x => (alike (t4_abc r) /\ t_na r = t_nb r) /\ (alike (t4_abc x) /\ t_na x = t_nb x) end) ->
  forall (fs ts src : bool), passive (calc_param_sym complex_ops fs ts src b).
Proof.
  intros f u1 u2 s c b. unfold asym_line_new. destruct (Rlt_dec _ _); [discriminate|]. intros Eb U D A fs ts src.
  assert (Q : passive_matrix (inv complex_ops (compute_z_series_from_input s))) by (apply pm_inv, pm_series; exact D).
  assert (E : inv complex_ops (compute_z_series_from_input s) PhA PhC = inv complex_ops (compute_z_series_from_input s) PhB PhC).
  { unfold inv. f_equal. cbn [cofactor_t complex_ops c_sub c_mul]. destruct s as [r x|r x]; cbn [compute_z_series_from_input].
    - destruct A as [[A1 A2] [A3 A4]]. unfold of_tri, tensor6. rewrite A1, A2, A3, A4. creal; ring.
    - destruct A as [[[A1 A2] A5] [[A3 A4] A6]]. unfold kron_reduction, of_tri4, of_tri, tensor6. rewrite A1, A2, A3, A4, A5, A6. generalize (cinv (t_nn r, t_nn x)). intros v. creal; ring. }
  generalize dependent (inv complex_ops (compute_z_series_from_input s)). intros m Eb Q E. apply some_eq in Eb. subst b. unfold calc_param_sym.
  destruct (energized fs ts src); cbn [sym_calc_param]; [|apply passive_0]. unfold asym_line_sym. apply passive_y; [| |apply one_nz].
  - apply average_nonneg; [|cbv beta; now rewrite E]. refine (pm_cscale (1 / base_y u1) m _ Q). pose proof (base_y_inv u1 U). unfold Rdiv. lra.
  - apply Req_le. unfold average_of_diagonal_of_matrix, average_of_off_diagonal_of_matrix. rewrite three_c, two_c. cbn [complex_ops c_add c_sub c_mul c_div].
    replace (cmul (2, 0) (3, 0)) with (6, 0) by (creal; ring). rewrite !real_div. unfold cadd, csub, cmul, cscale, re, im; cbn [fst snd]. ring.
Qed.
Lemma closed_real ys ysh : passive (calc_param_y_sym complex_ops true true ys ysh (c_1 complex_ops)) -> re ysh = 0 -> 0 <= re ys.
Proof.
  intros H Z. specialize (H (1, 0) (0, 0) _ _ (Logic.conj eq_refl eq_refl)). unfold calc_param_y_sym in H. cbn [andb negb] in H. cbv zeta in H. cbn [yff yft ytf ytt] in H. rewrite half_c in H.
  cbn [complex_ops c_add c_mul c_div c_1 c_abs c_neg c_conj] in H.
  assert (A : cabs (1, 0) = 1) by (unfold cabs, norm2, re, im; cbn [fst snd]; replace (1 * 1 + 0 * 0) with 1 by ring; apply sqrt_1).
  rewrite A, !real_div in H. unfold active, cadd, cmul, cscale, cneg, conj, re, im in *; cbn [fst snd] in *. replace (/ 1) with 1 in H by field. lra.
Qed.
Definition generating_line : series_in := three_wires (mkTri (516 / 165) (404 / 165) (404 / 165) (- (192 / 165)) (- (192 / 165)) (- (256 / 165))) (mkTri 0 0 0 0 0 0).
Theorem C63_asym_line_symmetric_refuted : exists b : branch_kind, asym_line_new 50 1000 1000 generating_line (sequences 0 0) = Some b /\ dissipative_series generating_line /\
  ~ passive (calc_param_sym complex_ops true true true b).
Proof.
  eexists. split; [unfold asym_line_new; destruct (Rlt_dec _ _) as [H|H]; [rewrite Rminus_eq_0, Rabs_R0 in H; unfold numerical_tolerance in H; lra|reflexivity]|]. split.
  - cbn [dissipative_series generating_line]. intros x. unfold of_tri, tensor6. cbn [t_aa t_bb t_cc t_ba t_ca t_cb].
    generalize (x PhA), (x PhB), (x PhC). intros a b c.
    match goal with |- 0 <= ?e => replace e with (4 / 165 * (a * a + b * b + c * c + 4 * ((3 * b - 4 * a) * (3 * b - 4 * a) + (3 * c - 4 * a) * (3 * c - 4 * a) + (4 * c - 4 * b) * (4 * c - 4 * b)))) by field end.
    apply Rmult_le_pos; [lra|]. pose proof (Rle_0_sqr a). pose proof (Rle_0_sqr b). pose proof (Rle_0_sqr c). pose proof (Rle_0_sqr (3 * b - 4 * a)). pose proof (Rle_0_sqr (3 * c - 4 * a)).
    pose proof (Rle_0_sqr (4 * c - 4 * b)). unfold Rsqr in *. lra.
  - assert (D : det complex_ops (compute_z_series_from_input generating_line) = (64 / 165, 0)).
    { unfold det. cbn [compute_z_series_from_input generating_line complex_ops c_add c_sub c_mul]. unfold of_tri, tensor6. cbn [t_aa t_bb t_cc t_ba t_ca t_cb]. creal; field. }
    assert (V : forall p q, inv complex_ops (compute_z_series_from_input generating_line) p q =
      (match p, q with PhA, PhA => 37 / 4 | PhA, _ | _, PhA => 12 | PhB, PhB | PhC, PhC => 65 / 4 | _, _ => 16 end, 0)).
    { intros p q. unfold inv. rewrite D. cbn [complex_ops c_div]. rewrite real_div. destruct p, q; cbn [cofactor_t compute_z_series_from_input generating_line complex_ops c_sub c_mul];
        unfold of_tri, tensor6; cbn [t_aa t_bb t_cc t_ba t_ca t_cb]; creal; field. }
    assert (B : 1 / base_y 1000 = 1) by (rewrite base_y_eq by lra; unfold base_power_3p; field).
    rewrite B. generalize dependent (inv complex_ops (compute_z_series_from_input generating_line)). intros m V H.
    change (passive (calc_param_y_sym complex_ops true true
      (c_sub complex_ops (average_of_diagonal_of_matrix complex_ops (fun p q => cscale 1 (m p q))) (average_of_off_diagonal_of_matrix complex_ops (fun p q => cscale 1 (m p q))))
      (c_sub complex_ops (average_of_diagonal_of_matrix complex_ops (fun p q => cscale 1 (0, 2 * PI * 50 * compute_c_matrix_from_input (sequences 0 0) p q)))
        (average_of_off_diagonal_of_matrix complex_ops (fun p q => cscale 1 (0, 2 * PI * 50 * compute_c_matrix_from_input (sequences 0 0) p q)))) (c_1 complex_ops))) in H.
    apply closed_real in H.
    + unfold average_of_diagonal_of_matrix, average_of_off_diagonal_of_matrix in H. rewrite three_c, two_c, !V in H. cbn [complex_ops c_add c_sub c_mul c_div] in H.
      replace (cmul (2, 0) (3, 0)) with (6, 0) in H by (creal; ring). rewrite !real_div in H. unfold cadd, csub, cmul, cscale, re, im in H; cbn [fst snd] in H. lra.
    + unfold average_of_diagonal_of_matrix, average_of_off_diagonal_of_matrix. rewrite three_c, two_c. cbn [complex_ops c_add c_sub c_mul c_div].
      replace (cmul (2, 0) (3, 0)) with (6, 0) by (creal; ring). rewrite !real_div. unfold cadd, csub, cmul, cscale, re, im; cbn [fst snd]. ring.
Qed.

(** ** Shunts: conductances that are not negative; the reported powers *)
Lemma pm_tensor y1 y0 : 0 <= re y1 -> 0 <= re y0 -> passive_matrix (tensor2 (cdiv (cadd (cmul (2, 0) y1) y0) (3, 0)) (cdiv (csub y0 y1) (3, 0))).
Proof.
  intros H1 H0 u. unfold active3, active, dotv, tensor2. cbn [phase_eqb complex_ops c_add c_mul]. rewrite !real_div.
  destruct y1 as [g1 b1], y0 as [g0 b0]. generalize (u PhA), (u PhB), (u PhC). intros [a a'] [b b'] [c c']. unfold cadd, csub, cmul, cscale, conj, re, im in *; cbn [fst snd] in *.
  match goal with |- 0 <= ?e => replace e with (g1 / 3 * ((a - b) * (a - b) + (b - c) * (b - c) + (c - a) * (c - a) + (a' - b') * (a' - b') + (b' - c') * (b' - c') + (c' - a') * (c' - a'))
    + g0 / 3 * ((a + b + c) * (a + b + c) + (a' + b' + c') * (a' + b' + c'))) by field end.
  assert (S : forall x, 0 <= x * x) by (intros x; apply Rle_0_sqr).
  apply Rplus_le_le_0_compat; apply Rmult_le_pos; try lra; repeat apply Rplus_le_le_0_compat; apply S.
Qed.
Theorem C63_shunt : forall (u_rated g1 b1 g0 b0 : R), 0 < u_rated -> 0 <= g1 ->
  (forall u : val symmetric C, let r := shunt_result symmetric u_rated g1 b1 g0 b0 u in 0 <= a_p (appliance_get_output symmetric shunt u_rated (fst r) (snd r))) /\
  (0 <= g0 -> forall u : val asymmetric C, let r := shunt_result asymmetric u_rated g1 b1 g0 b0 u in
   let '(pa, pb, pc) := a_p (appliance_get_output asymmetric shunt u_rated (fst r) (snd r)) in 0 <= pa + pb + pc).
Proof.
  intros ur g1 b1 g0 b0 U G1. split.
  - intros u. cbv zeta. destruct (C59_shunt_power_symmetric ur g1 b1 g0 b0 u (0, 0) U) as [E _]. rewrite E. apply Rmult_le_pos; [exact G1|apply Rle_0_sqr].
  - intros G0 [[ua ub] uc]. cbv zeta. pose proof (pm_tensor (shunt_y ur g1 b1) (shunt_y ur g0 b0)) as H. 
    assert (A : 0 <= re (shunt_y ur g1 b1)) by (apply Rmult_le_pos; [now apply base_y_inv|exact G1]). assert (B : 0 <= re (shunt_y ur g0 b0)) by (apply Rmult_le_pos; [now apply base_y_inv|exact G0]).
    specialize (H A B (fun p => match p with PhA => ua | PhB => ub | PhC => uc end)). unfold active3, active, dotv, tensor2 in H. cbn [phase_eqb complex_ops c_add c_mul] in H. rewrite !real_div in H.
    unfold shunt_result, shunt_current, appliance_get_output, tensor_dot. cbn [fst snd a_p vmap vmap2 base_power injection_direction].
    clear A B. revert H. generalize (shunt_y ur g1 b1), (shunt_y ur g0 b0). intros [x1 x1'] [x0 x0'] H. destruct ua, ub, uc.
    assert (P : 0 < base_power_1p) by (unfold base_power_1p, base_power_3p; lra).
    match type of H with 0 <= ?h => match goal with |- 0 <= ?e => replace e with (base_power_1p * h) end end; [apply Rmult_le_pos; lra|].
    unfold cadd, csub, cmul, cscale, conj, re, im; cbn [fst snd]. field.
Qed.
