(** C63: branches and shunts do not generate active power. Where the model divides by zero it gets zero, where the code gets infinity or a number that is no number: the theorems say nothing about
    results that are not finite. *)
From Coq Require Import Reals ZArith Bool List Lra Lia Field Psatz.
From Verif Require Import Common Component TwoPort TwoPortSpec TwoPortFacts TwoPortProps Taps Units UnitsFacts Ratings RatingsSpec RatingsFacts RatingsProps RatingsZero LossesSpec LossesFacts.
Import ListNotations.
Local Open Scope R_scope.

Lemma passive_zero : passive (two_port0 complex_ops). Proof. apply passive_0. Qed.
Lemma never b : (forall fs ts, passive (sym_calc_param complex_ops fs ts b) /\ forall p, asym_calc_param complex_ops fs ts b = Some p -> passive3 p) -> never_generates b.
Proof.
  intros H fs ts src. unfold calc_param_sym, calc_param_asym. destruct (energized fs ts src); [apply H|]. split; [apply passive_0|]. intros p [= <-]. apply passive3_diagonal; apply pm_0.
Qed.
Lemma base_y_inv u : 0 < u -> 0 <= / base_y u.
Proof. intros H. apply Rlt_le, Rinv_0_lt_compat. now apply base_y_pos. Qed.
Lemma passive_line_asym fs ts y1 s1 y0 s0 n : 0 <= re y1 -> 0 <= re s1 -> 0 <= re y0 -> 0 <= re s0 -> n <> (0, 0) -> passive3 (calc_param_y_asym complex_ops fs ts y1 s1 y0 s0 n).
Proof.
  intros A B A0 B0 N. destruct (line_sequences complex_ops complex_laws fs ts y1 s1 y0 s0 n complex_rots) as (H1 & H2 & H0).
  apply (passive_sequences _ _ _ _ H1 H2 H0); now apply passive_y.
Qed.
Lemma one_nz : c_1 complex_ops <> (0, 0). Proof. cbn. intros [= E]. lra. Qed.

(** ** Lines: resistances, frequency and dielectric losses that are not negative *)
Theorem C63_line : forall (f u1 u2 : R) (i : line_in) (b : branch_kind), line_new f u1 u2 i = Some b -> 0 < u1 -> 0 <= f ->
  0 <= li_r1 i -> 0 <= li_r0 i -> 0 <= li_c1 i * li_tan1 i -> 0 <= li_c0 i * li_tan0 i -> never_generates b.
Proof.
  intros f u1 u2 i b. unfold line_new. destruct (Rlt_dec _ _); [discriminate|]. intros [= <-] U F R1 R0 T1 T0. apply never. intros fs ts. cbn [sym_calc_param asym_calc_param].
  assert (S : forall r x, 0 <= r -> 0 <= re (line_series u1 r x)) by (intros; apply Rmult_le_pos; [now apply base_y_inv|apply re_inv; assumption]).
  assert (P : forall c t, 0 <= c * t -> 0 <= re (line_shunt f u1 c t)).
  { intros c t H. unfold line_shunt, cscale, re; cbn [fst snd]. unfold Rdiv. replace (2 * PI * f * c * / base_y u1 * t) with (2 * PI * f * / base_y u1 * (c * t)) by ring.
    pose proof PI_RGT_0. pose proof (base_y_inv u1 U). apply Rmult_le_pos; [|exact H]. apply Rmult_le_pos; [|assumption]. apply Rmult_le_pos; lra. }
  split; [apply passive_y|intros p [= <-]; apply passive_line_asym]; auto using one_nz.
Qed.
(** ** Links *)
Theorem C63_link : never_generates link_new.
Proof.
  apply never. intros fs ts. cbn [sym_calc_param asym_calc_param link_new]. assert (0 <= g_link) by (unfold g_link, base_power_3p; lra).
  split; [apply passive_y|intros p [= <-]; apply passive_line_asym]; cbn [complex_ops c_0]; unfold re; cbn [fst]; try lra; apply one_nz.
Qed.
(** ** Generic branches: a ratio that is not zero, any angle *)
Theorem C63_generic_branch : forall (u2 : R) (i : generic_in), 0 < u2 -> 0 <= gi_r1 i -> 0 <= gi_g1 i -> (match gi_k i with Some k => k | None => 1 end) <> 0 -> never_generates (generic_new u2 i).
Proof.
  intros u2 i U R1 G K. apply never. intros fs ts. cbn [sym_calc_param asym_calc_param generic_new]. split; [|discriminate].
  apply passive_y; [apply Rmult_le_pos; [now apply base_y_inv|apply re_inv; assumption]|apply Rmult_le_pos; [now apply base_y_inv|assumption]|].
  apply scale_nz; [exact K|]. intros E. pose proof (f_equal norm2 E) as Q. unfold norm2, cexp in Q. cbn [re im fst snd] in Q. pose proof (sin2_cos2 (match gi_theta i with Some t => fmod t (2 * PI) | None => 0 end)) as T. unfold Rsqr in T. lra.
Qed.
(** ** Lines with a matrix of impedances, in asymmetric calculations: resistances that dissipate *)
Definition dissipative_series (s : series_in) : Prop :=
  match s with
  | three_wires r _ => dissipative (of_tri r)
  | four_wires r x => dissipative4 (of_tri4 r) /\ (t_nn r, t_nn x) <> (0, 0)
  end.
Lemma pm_cscale k (m : @mat C) : 0 <= k -> passive_matrix m -> passive_matrix (fun p q => cscale k (m p q)).
Proof.
  intros K H. apply pm_ext with (scale complex_ops (k, 0) m); [|now apply pm_scale]. intros x y. unfold scale. generalize (m x y). intros z. cbn [complex_ops c_mul]. creal; ring.
Qed.
Lemma pm_imaginary (c : phase -> phase -> R) k k' : (forall p q, c p q = c q p) -> passive_matrix (fun p q => cscale k (0, k' * c p q)).
Proof.
  intros S u. apply Req_le. unfold active3, active, dotv. cbn [complex_ops c_add c_mul]. rewrite (S PhB PhA), (S PhC PhA), (S PhC PhB). unfold cadd, cmul, cscale, conj, re, im; cbn [fst snd]. ring.
Qed.
Theorem C63_asym_line : forall (f u1 u2 : R) (s : series_in) (c : capacitance_in) (b : branch_kind), asym_line_new f u1 u2 s c = Some b -> 0 < u1 -> dissipative_series s ->
  forall (fs ts src : bool) (p : two_port mat), calc_param_asym complex_ops fs ts src b = Some p -> passive3 p.
Proof.
  intros f u1 u2 s c b. unfold asym_line_new. destruct (Rlt_dec _ _); [discriminate|]. intros [= <-] U D fs ts src p. unfold calc_param_asym.
  destruct (energized fs ts src); cbn [asym_calc_param]; intros [= <-]; [|apply passive3_diagonal; apply pm_0]. apply passive_asym_line.
  - refine (pm_cscale (1 / base_y u1) (inv complex_ops (compute_z_series_from_input s)) _ _); [pose proof (base_y_inv u1 U); unfold Rdiv; lra|]. apply pm_inv, pm_series. exact D.
  - apply (pm_imaginary (compute_c_matrix_from_input c)). intros x y. destruct c; destruct x, y; reflexivity.
Qed.
(** ** Transformers: losses at the tap position and grounding resistances that are not negative *)
Lemma transformer_dissipative : forall (t : taps) (clock : Z) (i : transformer_in) (u1_rated u2_rated : R), 0 < u1_rated -> 0 < u2_rated -> tr_sn i <> 0 ->
  let '(u1, u2) := if tr_tap_at_from i then (tap_voltage real_ops t (tr_u1 i) (tr_tap_size i), tr_u2 i) else (tr_u1 i, tap_voltage real_ops t (tr_u2 i) (tr_tap_size i)) in
  u1 <> 0 -> u2 <> 0 ->
  let value x d := match x with Some v => v | None => d end in
  0 <= adjust real_ops t (tr_pk i) (value (tr_pk_min i) (tr_pk i)) (value (tr_pk_max i) (tr_pk i)) -> 0 <= tr_p0 i ->
  (let i0_zero := value (tr_i0_zero i) (tr_i0 i) in 0 <= value (tr_p0_zero i) (tr_p0 i + tr_pk i * (i0_zero * i0_zero - tr_i0 i * tr_i0 i))) ->
  0 <= value (tr_r_from i) 0 -> 0 <= value (tr_r_to i) 0 -> dissipative_transformer (transformer_at t clock i u1_rated u2_rated).
Proof.
  intros t clock i u1r u2r U1r U2r SN. fold (tap_voltages t i). destruct (tap_voltages t i) as [u1 u2] eqn:Ev. cbv beta zeta.
  fold (or_else (tr_pk_min i) (tr_pk i)) (or_else (tr_pk_max i) (tr_pk i)) (or_else (tr_i0_zero i) (tr_i0 i)) (or_else (tr_r_from i) 0) (or_else (tr_r_to i) 0).
  match goal with |- context [match tr_p0_zero i with Some v => v | None => ?d end] => fold (or_else (tr_p0_zero i) d) end.
  intros U1 U2 PK P0 P00 RF RT. 
  assert (Y : forall x, 0 <= x -> 0 <= / (base_i u2r * base_i u2r / base_power_1p) * x) by (intros x X; apply Rmult_le_pos; [rewrite (base_y_to u2r U2r); now apply base_y_inv|exact X]).
  assert (Q : forall x k, 0 <= x -> 0 <= x / k / k) by (intros x k X; unfold Rdiv; rewrite Rmult_assoc; apply Rmult_le_pos; [exact X|apply Rle_0_sqr]).
  unfold transformer_at. rewrite Ev. unfold dissipative_transformer. cbn [tp_y_series tp_y_shunt tp_y0_shunt tp_k tp_z_grounding_from tp_z_grounding_to tp_low_susceptance]. cbv zeta.
    refine (Logic.conj _ (Logic.conj _ (Logic.conj _ (Logic.conj _ (Logic.conj _ (Logic.conj _ (Logic.conj _ _))))))).
    - apply Y, re_inv. unfold z_series, re; cbn [fst]. apply Q. rewrite Rmult_assoc. apply Rmult_le_pos; [exact PK|apply Rle_0_sqr].
    - apply Y. unfold y_shunt, re; cbn [fst]. now apply Q.
    - apply Y. unfold y_shunt, re; cbn [fst]. now apply Q.
    - reflexivity.
    - unfold re; cbn [fst]. unfold Rdiv. repeat apply Rmult_integral_contrapositive_currified; try apply Rinv_neq_0_compat; auto; try lra. apply Rmult_integral_contrapositive_currified; [lra|apply Rinv_neq_0_compat; lra].
    - unfold calculate_z_pu, re; cbn [fst]. unfold Rdiv at 1. apply Rmult_le_pos; [exact RF|]. apply Rlt_le, Rinv_0_lt_compat. unfold base_power_3p. apply Rdiv_lt_0_compat; [nra|lra].
    - unfold calculate_z_pu, re; cbn [fst]. unfold Rdiv at 1. apply Rmult_le_pos; [exact RT|]. apply Rlt_le, Rinv_0_lt_compat. unfold base_power_3p. apply Rdiv_lt_0_compat; [nra|lra].
    - reflexivity.
Qed.
Theorem C63_transformer : forall (t : taps) (clock : Z) (i : transformer_in) (u1_rated u2_rated : R), 0 < u1_rated -> 0 < u2_rated -> tr_sn i <> 0 ->
  let '(u1, u2) := if tr_tap_at_from i then (tap_voltage real_ops t (tr_u1 i) (tr_tap_size i), tr_u2 i) else (tr_u1 i, tap_voltage real_ops t (tr_u2 i) (tr_tap_size i)) in
  u1 <> 0 -> u2 <> 0 ->
  let value x d := match x with Some v => v | None => d end in
  0 <= adjust real_ops t (tr_pk i) (value (tr_pk_min i) (tr_pk i)) (value (tr_pk_max i) (tr_pk i)) -> 0 <= tr_p0 i ->
  (let i0_zero := value (tr_i0_zero i) (tr_i0 i) in 0 <= value (tr_p0_zero i) (tr_p0 i + tr_pk i * (i0_zero * i0_zero - tr_i0 i * tr_i0 i))) ->
  0 <= value (tr_r_from i) 0 -> 0 <= value (tr_r_to i) 0 -> never_generates (KTransformer (transformer_at t clock i u1_rated u2_rated)).
Proof.
  intros t clock i u1r u2r U1r U2r SN. pose proof (transformer_dissipative t clock i u1r u2r U1r U2r SN) as D0.
  destruct (if tr_tap_at_from i then (tap_voltage real_ops t (tr_u1 i) (tr_tap_size i), tr_u2 i) else (tr_u1 i, tap_voltage real_ops t (tr_u2 i) (tr_tap_size i))) as [u1 u2]. cbv beta zeta in *.
  intros U1 U2 PK P0 P00 RF RT. pose proof (D0 U1 U2 PK P0 P00 RF RT) as D. clear D0.
  generalize dependent (transformer_at t clock i u1r u2r). intros tp D. apply never. intros fs ts. cbn [sym_calc_param asym_calc_param].
  assert (N : forall n, c_mul complex_ops (tp_k tp) (c_rot complex_ops n) <> (0, 0)).
  { destruct D as (_ & _ & _ & K0 & K1 & _). intros n. assert (E : c_mul complex_ops (tp_k tp) (c_rot complex_ops n) = cscale (re (tp_k tp)) (cexp (IZR n * (PI / 6)))).
    { cbn [complex_ops c_mul c_rot]. replace (tp_k tp) with (re (tp_k tp), 0) at 1 by (apply c_eq; [reflexivity|symmetry; exact K0]). creal; ring. }
    rewrite E. apply scale_nz; [exact K1|apply clock_unit]. }
  pose proof D as (Hs & Hh & _).
  split; [unfold transformer_sym; now apply passive_y|]. intros p [= <-]. destruct (transformer_sequences complex_ops complex_laws fs ts tp complex_rots) as (H1 & H2 & H0).
  apply (passive_sequences _ _ _ _ H1 H2 H0); [now apply passive_param0|unfold transformer_sym; now apply passive_y|now apply passive_y].
Qed.
