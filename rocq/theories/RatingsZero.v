(** C62, continued: zero sequence of transformers with two earthed star windings, lines given by matrices, three-winding transformers. *)
From Coq Require Import Reals ZArith Bool List Lra Lia Field.
From Verif Require Import Common Component TwoPort TwoPortSpec TwoPortFacts TwoPortProps Taps Units UnitsFacts Ratings RatingsSpec RatingsFacts RatingsProps.
Import ListNotations.
Local Open Scope R_scope.

Lemma norm2_scale k z : norm2 (cscale k z) = k * k * norm2 z.
Proof. unfold norm2, cscale, re, im; cbn [fst snd]. ring. Qed.
Lemma inv_scale k z : k <> 0 -> z <> (0, 0) -> cinv (cscale k z) = cscale (/ k) (cinv z).
Proof.
  intros K Z. pose proof (norm2_pos z Z) as N. unfold cinv. rewrite norm2_scale. creal; fold (re z) (im z); field; lra.
Qed.
Lemma inv_inv z : z <> (0, 0) -> cinv (cinv z) = z.
Proof.
  intros Z. pose proof (cinv_mul z Z) as Q. pose proof (cinv_mul (cinv z) (inv_nz z Z)) as P.
  transitivity (cmul (cmul z (cinv z)) (cinv (cinv z))); [rewrite Q; creal; ring|].
  rewrite <- cmul_assoc, P. creal; ring.
Qed.
Lemma div_one z : cdiv (1, 0) z = cinv z.
Proof. unfold cdiv. creal; ring. Qed.
Lemma div_real z k : k <> 0 -> cdiv z (k, 0) = cscale (/ k) z.
Proof. intros K. unfold cdiv, cinv, norm2. creal; field; exact K. Qed.
Lemma three_c : three complex_ops = (3, 0). Proof. unfold three. rewrite two_c. cbn [complex_ops c_add c_1]. creal; ring. Qed.

(** ** Zero sequence between two earthed star windings: three times the earthing impedances, given in ohms, are in series; clock numbers 2, 6 and 10 reverse it.
    Without values of its own the zero sequence has the no-load current of the nameplate. *)
Theorem C62_zero_sequence : forall (i : transformer_in) (t : taps) (clock : Z) (u1_rated u2_rated : R),
  transformer_new (tr_taps i) (tr_clock i) (tr_from i) (tr_to i) = Some (t, clock) -> tr_from i = WyeN -> tr_to i = WyeN ->
  0 < u1_rated -> 0 < u2_rated -> 0 < tr_sn i ->
  let '(u1, u2) := if tr_tap_at_from i then (tap_voltage real_ops t (tr_u1 i) (tr_tap_size i), tr_u2 i) else (tr_u1 i, tap_voltage real_ops t (tr_u2 i) (tr_tap_size i)) in
  let at_tap x x_min x_max := adjust real_ops t x (match x_min with Some v => v | None => x end) (match x_max with Some v => v | None => x end) in
  let uk := at_tap (tr_uk i) (tr_uk_min i) (tr_uk_max i) in let pk := at_tap (tr_pk i) (tr_pk_min i) (tr_pk_max i) in
  let i0 := match tr_i0_zero i with Some x => x | None => tr_i0 i end in
  let p0 := match tr_p0_zero i with Some x => x | None => tr_p0 i + tr_pk i * (i0 * i0 - tr_i0 i * tr_i0 i) end in
  let given x := match x with Some v => v | None => 0 end in
  let z_from := (given (tr_r_from i), given (tr_x_from i)) in let z_to := (given (tr_r_to i), given (tr_x_to i)) in
  0 < u1 -> 0 < u2 -> uk <> 0 -> Rabs pk <= Rabs uk * tr_sn i -> 0 <= i0 -> Rabs p0 <= i0 * tr_sn i ->
  exists (par : transformer_par) (z y0 : C), transformer_calc i u1_rated u2_rated = Some par /\
    short_circuit_test uk pk (tr_sn i) u2 z /\ no_load_test i0 p0 (tr_sn i) u2 y0 /\
    let z0 := cadd z (cscale 3 (cadd z_to (cscale ((u2 / u1) * (u2 / u1)) z_from))) in
    let reversed := ((clock =? 2) || (clock =? 6) || (clock =? 10))%Z in
    z0 <> (0, 0) -> forall fs ts : bool, open_end_regular fs ts u2_rated z0 y0 ->
    exists q : two_port C, acts_as complex_ops (transformer_asym complex_ops fs ts par) (equal_phases complex_ops) q /\
      forall uf ut i_f i_t : C, injects complex_ops q uf ut i_f i_t <-> si_circuit fs ts z0 y0 ((if reversed then - (u1 / u2) else u1 / u2), 0) u1_rated u2_rated uf ut i_f i_t.
Proof.
  intros i t clock u1r u2r Et Wf Wt U1r U2r SN. fold (tap_voltages t i). destruct (tap_voltages t i) as [u1 u2] eqn:Ev.
  cbv beta zeta. fold (or_else (tr_uk_min i) (tr_uk i)) (or_else (tr_uk_max i) (tr_uk i)) (or_else (tr_pk_min i) (tr_pk i)) (or_else (tr_pk_max i) (tr_pk i)).
  fold (or_else (tr_i0_zero i) (tr_i0 i)). set (i0 := or_else (tr_i0_zero i) (tr_i0 i)).
  fold (or_else (tr_p0_zero i) (tr_p0 i + tr_pk i * (i0 * i0 - tr_i0 i * tr_i0 i))). set (p0 := or_else (tr_p0_zero i) (tr_p0 i + tr_pk i * (i0 * i0 - tr_i0 i * tr_i0 i))).
  fold (or_else (tr_r_from i) 0) (or_else (tr_x_from i) 0) (or_else (tr_r_to i) 0) (or_else (tr_x_to i) 0).
  set (uk := adjust real_ops t (tr_uk i) (or_else (tr_uk_min i) (tr_uk i)) (or_else (tr_uk_max i) (tr_uk i))).
  set (pk := adjust real_ops t (tr_pk i) (or_else (tr_pk_min i) (tr_pk i)) (or_else (tr_pk_max i) (tr_pk i))).
  intros U1 U2 K HP I0 H0.
  set (zf := (or_else (tr_r_from i) 0, or_else (tr_x_from i) 0)). set (zt := (or_else (tr_r_to i) 0, or_else (tr_x_to i) 0)).
  exists (transformer_at t clock i u1r u2r), (z_series uk pk u2 (tr_sn i)), (y_shunt i0 p0 u2 (tr_sn i)).
  split. { unfold transformer_calc. rewrite Et. reflexivity. }
  pose proof (z_series_test uk pk u2 (tr_sn i) U2 SN HP) as TZ. pose proof (y_shunt_test i0 p0 u2 (tr_sn i) U2 SN I0 H0) as TY.
  refine (Logic.conj TZ (Logic.conj TY _)). intros Z0 fs ts Hr.
  pose proof (short_circuit_nz _ _ _ _ _ K U2 TZ) as Z.
  set (z := z_series uk pk u2 (tr_sn i)) in *. set (y0 := y_shunt i0 p0 u2 (tr_sn i)) in *.
  set (z0 := cadd z (cscale 3 (cadd zt (cscale (u2 / u1 * (u2 / u1)) zf)))) in *.
  set (par := transformer_at t clock i u1r u2r).
  set (k := u1 / u2 / (u1r / u2r)).
  assert (RT : 0 < u1r / u2r) by (apply Rdiv_lt_0_compat; assumption).
  assert (KP : 0 < k) by (apply Rdiv_lt_0_compat; [apply Rdiv_lt_0_compat; assumption|exact RT]).
  pose proof (base_y_pos u2r U2r) as B. pose proof (Rinv_0_lt_compat _ B) as B'.
  exists (transformer_param0 complex_ops fs ts par). destruct (transformer_sequences complex_ops complex_laws fs ts par complex_rots) as (_ & _ & HS).
  split; [exact HS|]. intros uf ut i_f i_t.
  assert (P : par = mkTransformerPar (cscale (/ base_y u2r) (cinv z)) (cscale (/ base_y u2r) (y_shunt (tr_i0 i) (tr_p0 i) u2 (tr_sn i))) (cscale (/ base_y u2r) y0) (k, 0) clock WyeN WyeN
     (calculate_z_pu (tr_r_from i) (tr_x_from i) u1r) (calculate_z_pu (tr_r_to i) (tr_x_to i) u2r) (0, - (1 / 100000000) * tr_sn i / base_power_3p / tr_uk i)).
  { unfold par, transformer_at. rewrite Ev. cbv zeta. rewrite Wf, Wt, (base_y_to u2r U2r). reflexivity. }
  assert (G1 : calculate_z_pu (tr_r_from i) (tr_x_from i) u1r = cscale (base_y u1r) zf).
  { rewrite (base_y_eq u1r U1r). unfold calculate_z_pu, zf, base_power_3p. creal; field; lra. }
  assert (G2 : calculate_z_pu (tr_r_to i) (tr_x_to i) u2r = cscale (base_y u2r) zt).
  { rewrite (base_y_eq u2r U2r). unfold calculate_z_pu, zt, base_power_3p. creal; field; lra. }
  rewrite G1, G2 in P. rewrite P. unfold transformer_param0, transformer_param0_path.
  cbn [tp_winding_from tp_winding_to tp_y_series tp_y0_shunt tp_k tp_clock tp_z_grounding_from tp_z_grounding_to tp_low_susceptance is_wye_n is_zigzag_n andb zero_seq_available orb negb yff yft ytf ytt].
  set (flip := ((clock =? 2) || (clock =? 6) || (clock =? 10))%Z).
  assert (S0 : c_div complex_ops (c_1 complex_ops) (c_add complex_ops (c_div complex_ops (c_1 complex_ops) (cscale (/ base_y u2r) (cinv z)))
      (c_mul complex_ops (three complex_ops) (c_add complex_ops (cscale (base_y u2r) zt) (c_div complex_ops (c_div complex_ops (cscale (base_y u1r) zf) (k, 0)) (k, 0)))))
    = cscale (/ base_y u2r) (cinv z0)).
  { rewrite three_c. cbn [complex_ops c_div c_1 c_add c_mul]. rewrite !div_one, !div_real by lra.
    rewrite (inv_scale (/ base_y u2r) (cinv z)) by first [lra|now apply inv_nz]. rewrite (inv_inv z Z), Rinv_inv.
    rewrite <- (inv_scale (base_y u2r) z0) by first [lra|exact Z0]. f_equal. unfold z0. rewrite !scale_scale.
    replace (/ k * / k * base_y u1r) with (base_y u2r * (u2 / u1 * (u2 / u1))).
    - generalize (base_y u2r) (u2 / u1 * (u2 / u1)) zf zt z. intros. creal; ring.
    - unfold k. rewrite (base_y_eq u1r U1r), (base_y_eq u2r U2r). field. lra. }
  rewrite S0.
  assert (N : c_mul complex_ops (k, 0) (c_rot complex_ops (if flip then 6 else 0)) = ((if flip then - k else k), 0)).
  { destruct flip; [rewrite (rl_half complex_ops complex_rots)|rewrite (rl_0 complex_ops complex_rots)]; cbn [complex_ops c_mul c_neg c_1]; creal; ring. }
  rewrite N.
  assert (NZ : ((if flip then - k else k), 0) <> ((0, 0) : C)) by (intros Q; injection Q; destruct flip; lra).
  assert (EN : ((if flip then - (u1 / u2) else u1 / u2), 0) = cscale (u1r / u2r) ((if flip then - k else k), 0)).
  { unfold k. destruct flip; creal; field; lra. }
  rewrite EN, <- (si_general fs ts z0 y0 _ u1r u2r uf ut i_f i_t U1r U2r Z0 NZ Hr).
  match goal with |- injects _ ?a _ _ _ _ <-> injects _ ?b _ _ _ _ => replace a with b; [reflexivity|] end.
  destruct (calc_param_y_sym complex_ops fs ts (cscale (/ base_y u2r) (cinv z0)) (cscale (/ base_y u2r) y0) (if flip then - k else k, 0)). reflexivity.
Qed.

(** ** Lines given by matrices of resistances and reactances, of the phases or also of a neutral that is earthed at both ends, and capacitances by a matrix or by their
    sequence values; closed at both ends (for an open end see C26) *)
Add Field complex_numbers : complex_field.
Lemma scale_mul k z : cscale k z = cmul (k, 0) z. Proof. creal; ring. Qed.
Lemma half_c : half complex_ops = (1 / 2, 0).
Proof. unfold half. rewrite two_c. cbn [complex_ops c_div c_1]. rewrite div_real by lra. creal; field. Qed.
Lemma kron_ok (z : wire -> wire -> C) (du i : phase -> C) : (forall v w, z v w = z w v) -> z neutral neutral <> (0, 0) ->
  along_wires z du i <-> along_phases (kron_reduction z) du i.
Proof.
  intros Sy N. unfold along_phases, along_wires.
  assert (Kr : forall p q, kron_reduction z p q = csub (z (conductor p) (conductor q)) (cmul (cmul (z neutral (conductor p)) (z (conductor q) neutral)) (cinv (z neutral neutral)))).
  { intros p q. unfold kron_reduction. f_equal. destruct p, q; cbn [tensor6]; apply Sy || reflexivity. }
  split.
  - intros (i_n & H) p. rewrite !Kr. pose proof (H (conductor p)) as Hp. pose proof (H neutral) as Hn. cbn beta iota in Hp, Hn. rewrite Hp.
    rewrite (Sy (conductor PhA) neutral), (Sy (conductor PhB) neutral), (Sy (conductor PhC) neutral), (Sy (conductor p) neutral).
    assert (I : i_n = cneg (cmul (cinv (z neutral neutral)) (cadd (cadd (cmul (z neutral (conductor PhA)) (i PhA)) (cmul (z neutral (conductor PhB)) (i PhB))) (cmul (z neutral (conductor PhC)) (i PhC))))).
    { set (s := cadd (cadd (cmul (z neutral (conductor PhA)) (i PhA)) (cmul (z neutral (conductor PhB)) (i PhB))) (cmul (z neutral (conductor PhC)) (i PhC))) in *.
      assert (Q : s = cneg (cmul (z neutral neutral) i_n)) by (transitivity (csub (cadd s (cmul (z neutral neutral) i_n)) (cmul (z neutral neutral) i_n)); [ring|rewrite <- Hn; ring]).
      rewrite Q. field. exact N. }
    rewrite I. ring.
  - intros H. exists (cneg (cmul (cinv (z neutral neutral)) (cadd (cadd (cmul (z neutral (conductor PhA)) (i PhA)) (cmul (z neutral (conductor PhB)) (i PhB))) (cmul (z neutral (conductor PhC)) (i PhC))))).
    intros [p|].
    + rewrite (H p), !Kr. rewrite (Sy (conductor PhA) neutral), (Sy (conductor PhB) neutral), (Sy (conductor PhC) neutral), (Sy (conductor p) neutral). ring.
    + match goal with |- ?a = ?b => change (@eq C a b) end. symmetry. field. exact N.
Qed.
(** the currents that the voltages along the wires drive *)
Definition series_law (s : series_in) (du i : phase -> C) : Prop :=
  match s with
  | three_wires r x => along_phases (fun p q => (of_tri r p q, of_tri x p q)) du i
  | four_wires r x => along_wires (fun v w => (of_tri4 r v w, of_tri4 x v w)) du i
  end.
(** no voltages without currents, and an impedance of the neutral *)
Definition series_regular (s : series_in) : Prop :=
  det complex_ops (compute_z_series_from_input s) <> (0, 0) /\
  match s with three_wires _ _ => True | four_wires r x => (t_nn r, t_nn x) <> (0, 0) end.
(** the matrices hold the given values, whichever wire comes first *)
Theorem C62_wires : forall t : tri4, let m := of_tri4 t in let a := conductor PhA in let b := conductor PhB in let c := conductor PhC in
  m a a = t_aa (t4_abc t) /\ m b b = t_bb (t4_abc t) /\ m c c = t_cc (t4_abc t) /\ m neutral neutral = t_nn t /\
  (m b a = t_ba (t4_abc t) /\ m c a = t_ca (t4_abc t) /\ m c b = t_cb (t4_abc t) /\ m neutral a = t_na t /\ m neutral b = t_nb t /\ m neutral c = t_nc t) /\
  (forall v w, m v w = m w v) /\ forall x y, of_tri (t4_abc t) x y = m (conductor x) (conductor y).
Proof. intros t. cbv zeta. repeat split. intros [[| |]|] [[| |]|]; reflexivity. Qed.
Lemma tri4_symmetric t v w : of_tri4 t v w = of_tri4 t w v.
Proof. destruct v as [[| |]|], w as [[| |]|]; reflexivity. Qed.
Lemma series_law_ok (s : series_in) (du i : phase -> C) : series_regular s ->
  series_law s du i <-> veq i (dotv complex_ops (inv complex_ops (compute_z_series_from_input s)) du).
Proof.
  intros [D N]. assert (E : series_law s du i <-> veq du (dotv complex_ops (compute_z_series_from_input s) i)).
  { destruct s as [r x|r x]; cbn [series_law compute_z_series_from_input]; [reflexivity|].
    rewrite kron_ok; [reflexivity| |exact N]. intros v w. rewrite (tri4_symmetric r v w), (tri4_symmetric x v w). reflexivity. }
  rewrite E. split; intros H p.
  - rewrite (dot_ext complex_ops _ _ _ H p). symmetry. apply (inv_dot complex_ops complex_laws); exact D.
  - rewrite (dot_ext complex_ops _ _ _ H p). symmetry. apply (dot_inv complex_ops complex_laws); exact D.
Qed.
Lemma amps_dot u (m : @mat C) (x : phase -> C) p : 0 < u ->
  amps u (dotv complex_ops (fun p q => cscale (1 / base_y u) (m p q)) x p) = dotv complex_ops m (fun q => volts u (x q)) p.
Proof.
  intros U. unfold amps, volts, dotv. cbn [complex_ops c_add c_mul]. pose proof sqrt3_pos as S0.
  assert (E : cmul (1000000 / (sqrt 3 * u), 0) (1 / base_y u, 0) = (u / sqrt 3, 0)).
  { rewrite (base_y_eq u U). creal; field; lra. }
  rewrite !(scale_mul (1 / base_y u)), !(scale_mul (u / sqrt 3)), scale_mul, <- E. ring.
Qed.
Lemma amps_add u a b : amps u (cadd a b) = cadd (amps u a) (amps u b). Proof. apply scale_add. Qed.
Lemma amps_inj u a b : 0 < u -> amps u a = amps u b -> a = b.
Proof.
  intros U. apply cscale_inj. pose proof sqrt3_pos. apply Rgt_not_eq, Rdiv_lt_0_compat; [lra|now apply Rmult_lt_0_compat].
Qed.
Theorem C62_asym_line : forall (f u1 u2 : R) (s : series_in) (c : capacitance_in), 0 < u1 -> 0 < u2 ->
  (1 / 100000000 < Rabs (u1 - u2) -> asym_line_new f u1 u2 s c = None) /\
  (u1 = u2 -> series_regular s -> exists (b : branch_kind) (p : two_port mat), asym_line_new f u1 u2 s c = Some b /\ calc_param_asym complex_ops true true true b = Some p /\
    forall uf ut i_f i_t : phase -> C,
    let charging x u := cscale (1 / 2) (cmul (0, 2 * PI * f) (cadd (cadd (cscale (compute_c_matrix_from_input c x PhA) (u PhA)) (cscale (compute_c_matrix_from_input c x PhB) (u PhB)))
                                                               (cscale (compute_c_matrix_from_input c x PhC) (u PhC)))) in
    let v_f x := volts u1 (uf x) in let v_t x := volts u2 (ut x) in
    injects3 complex_ops p uf ut i_f i_t <->
    exists i_s : phase -> C, series_law s (fun x => csub (v_f x) (v_t x)) i_s /\
      forall x, amps u1 (i_f x) = cadd (i_s x) (charging x v_f) /\ amps u2 (i_t x) = csub (charging x v_t) (i_s x)).
Proof.
  intros f u1 u2 s c U1 U2. unfold asym_line_new, numerical_tolerance. split.
  { intros H. destruct (Rlt_dec (1 / 100000000) (Rabs (u1 - u2))); [reflexivity|contradiction]. }
  intros <- Hs. destruct (Rlt_dec (1 / 100000000) (Rabs (u1 - u1))) as [H|_].
  { exfalso. replace (u1 - u1) with 0 in H by ring. rewrite Rabs_R0 in H. lra. }
  eexists _, _. refine (Logic.conj eq_refl (Logic.conj eq_refl _)). intros uf ut i_f i_t. cbv beta zeta.
  set (M := inv complex_ops (compute_z_series_from_input s)). set (Y := fun p q => (0, 2 * PI * f * compute_c_matrix_from_input c p q) : C).
  set (vf := fun x => volts u1 (uf x)). set (vt := fun x => volts u1 (ut x)).
  assert (IF : forall x a, a = amps u1 (c_add complex_ops (dotv complex_ops (addm complex_ops (fun p q => cscale (1 / base_y u1) (M p q)) (scale complex_ops (half complex_ops) (fun p q => cscale (1 / base_y u1) (Y p q)))) uf x)
      (dotv complex_ops (negm complex_ops (fun p q => cscale (1 / base_y u1) (M p q))) ut x)) <->
    a = cadd (dotv complex_ops M (fun q => csub (vf q) (vt q)) x) (cscale (1 / 2) (dotv complex_ops Y vf x))).
  { intros x a. match goal with |- a = ?X <-> a = ?Z => replace Z with X; [reflexivity|] end.
    transitivity (cadd (cadd (amps u1 (dotv complex_ops (fun p q => cscale (1 / base_y u1) (M p q)) uf x)) (cmul (1 / 2, 0) (amps u1 (dotv complex_ops (fun p q => cscale (1 / base_y u1) (Y p q)) uf x))))
       (cneg (amps u1 (dotv complex_ops (fun p q => cscale (1 / base_y u1) (M p q)) ut x)))).
    - unfold amps. rewrite !(scale_mul (1000000 / (sqrt 3 * u1))). unfold dotv, addm, negm, scale. rewrite half_c. cbn [complex_ops c_add c_mul c_neg]. ring.
    - rewrite !(amps_dot u1) by exact U1. fold vf vt. unfold dotv. rewrite !scale_mul. cbn [complex_ops c_add c_mul]. fold (vf PhA) (vf PhB) (vf PhC) (vt PhA) (vt PhB) (vt PhC).
      change (fun q => volts u1 (uf q)) with vf. change (fun q => volts u1 (ut q)) with vt. ring. }
  assert (IT : forall x a, a = amps u1 (c_add complex_ops (dotv complex_ops (negm complex_ops (fun p q => cscale (1 / base_y u1) (M p q))) uf x)
      (dotv complex_ops (addm complex_ops (fun p q => cscale (1 / base_y u1) (M p q)) (scale complex_ops (half complex_ops) (fun p q => cscale (1 / base_y u1) (Y p q)))) ut x)) <->
    a = csub (cscale (1 / 2) (dotv complex_ops Y vt x)) (dotv complex_ops M (fun q => csub (vf q) (vt q)) x)).
  { intros x a. match goal with |- a = ?X <-> a = ?Z => replace Z with X; [reflexivity|] end.
    transitivity (cadd (cadd (amps u1 (dotv complex_ops (fun p q => cscale (1 / base_y u1) (M p q)) ut x)) (cmul (1 / 2, 0) (amps u1 (dotv complex_ops (fun p q => cscale (1 / base_y u1) (Y p q)) ut x))))
       (cneg (amps u1 (dotv complex_ops (fun p q => cscale (1 / base_y u1) (M p q)) uf x)))).
    - unfold amps. rewrite !(scale_mul (1000000 / (sqrt 3 * u1))). unfold dotv, addm, negm, scale. rewrite half_c. cbn [complex_ops c_add c_mul c_neg]. ring.
    - rewrite !(amps_dot u1) by exact U1. fold vf vt. unfold dotv. rewrite !scale_mul. cbn [complex_ops c_add c_mul]. fold (vf PhA) (vf PhB) (vf PhC) (vt PhA) (vt PhB) (vt PhC).
      change (fun q => volts u1 (uf q)) with vf. change (fun q => volts u1 (ut q)) with vt. ring. }
  assert (CH : forall x u, dotv complex_ops Y u x = cmul (0, 2 * PI * f) (cadd (cadd (cscale (compute_c_matrix_from_input c x PhA) (u PhA)) (cscale (compute_c_matrix_from_input c x PhB) (u PhB)))
                                                               (cscale (compute_c_matrix_from_input c x PhC) (u PhC)))).
  { intros x u. unfold dotv, Y. cbn [complex_ops c_add c_mul]. creal; ring. }
  unfold injects3, vadd, veq. cbn [yff yft ytf ytt negb andb asym_line_asym]. split.
  - intros [Hf Ht]. exists (dotv complex_ops M (fun q => csub (vf q) (vt q))). split; [apply series_law_ok; [exact Hs|]; intros p; reflexivity|].
    intros x. split.
    + transitivity (cadd (dotv complex_ops M (fun q => csub (vf q) (vt q)) x) (cscale (1 / 2) (dotv complex_ops Y vf x))); [|rewrite (CH x vf); reflexivity].
      apply IF. f_equal. apply Hf.
    + transitivity (csub (cscale (1 / 2) (dotv complex_ops Y vt x)) (dotv complex_ops M (fun q => csub (vf q) (vt q)) x)); [|rewrite (CH x vt); reflexivity].
      apply IT. f_equal. apply Ht.
  - intros (i_s & Hl & H). apply (series_law_ok s _ _ Hs) in Hl. fold M in Hl.
    split; intros x; apply (amps_inj u1 _ _ U1); destruct (H x) as [H1 H2].
    + apply IF. etransitivity; [exact H1|]. rewrite (CH x vf), (Hl x). reflexivity.
    + apply IT. etransitivity; [exact H2|]. rewrite (CH x vt), (Hl x). reflexivity.
Qed.
(** capacitances given by sequence values: [c1] between balanced voltages, [c0] between equal ones *)
Theorem C62_sequence_capacitances : forall (c0 c1 : R) (x y : phase), 
  let c := compute_c_matrix_from_input (sequences c0 c1) in
  c x y = c y x /\ c x PhA + c x PhB + c x PhC = c0 /\ (x <> y -> c x x - c x y = c1).
Proof.
  intros c0 c1 x y. cbn [compute_c_matrix_from_input]. destruct x, y; cbn; repeat split; intros; try field; congruence.
Qed.
