(** C59: values that go in and come out are in SI units and mean what they are documented to mean. *)
From Coq Require Import Reals List ZArith Lra Lia.
From Verif Require Import Units UnitsSpec UnitsFacts.
Import ListNotations.
Local Open Scope R_scope.

(** ** Voltage, current and power belong together *)

Lemma power_scalar y u_rated (u i s : C) :
  0 < u_rated -> s = cmul u (conj i) ->
  base_power y * cabs s = line_factor y * (u_scale y * u_rated * cabs u) * (base_i u_rated * cabs i).
Proof.
  intros U E. rewrite E, cabs_mul, cabs_conj, <- (base_product y u_rated U). ring.
Qed.
Lemma power_parts y (s : C) :
  (base_power y * re s) * (base_power y * re s) + (base_power y * im s) * (base_power y * im s)
  = (base_power y * cabs s) * (base_power y * cabs s) /\ 0 <= base_power y * cabs s.
Proof.
  split.
  - replace ((base_power y * cabs s) * (base_power y * cabs s)) with (base_power y * base_power y * (cabs s * cabs s)) by ring.
    rewrite cabs_sq. unfold norm2. ring.
  - apply Rmult_le_pos; [left; apply base_power_pos|apply cabs_nonneg].
Qed.

Lemma side_power :
  forall (y : symmetry) (u_rated : R) (u i s inj : val y C),
  0 < u_rated ->
  each3 y (fun u i s => s = cmul u (conj i)) u i s ->
  let n := node_get_output y u_rated u inj in
  let o := side_get_output y u_rated s i in
  each3 y (fun u i s => s = line_factor y * u * i) (n_u n) (b_i o) (b_s o) /\
  each3 y (fun p q s => p * p + q * q = s * s /\ 0 <= s) (b_p o) (b_q o) (b_s o).
Proof.
  intros y u_rated u i s inj U E. destruct y; cbn in *.
  - split; [apply (power_scalar symmetric); assumption|apply (power_parts symmetric)].
  - destruct u as [[u1 u2] u3], i as [[i1 i2] i3], s as [[s1 s2] s3]. cbn in *. destruct E as (E1 & E2 & E3).
    split; [repeat split; apply (power_scalar asymmetric); assumption|].
    split; [|split]; apply (power_parts asymmetric).
Qed.

(** Apparent power is voltage times current (times the square root of 3 for line voltage and three-phase
    power), and is made up of active and reactive power: at both sides of a branch, between nodes of any
    rated voltages... *)
Theorem C59_branch_power_is_voltage_times_current :
  forall (y : symmetry) (r : branch_rating) (u1 u2 : R) (uf i_f sf ut i_t st injf injt : val y C),
  0 < u1 -> 0 < u2 ->
  each3 y (fun u i s => s = cmul u (conj i)) uf i_f sf ->
  each3 y (fun u i s => s = cmul u (conj i)) ut i_t st ->
  let nf := node_get_output y u1 uf injf in
  let nt := node_get_output y u2 ut injt in
  let f := br_from (branch_get_output y r u1 u2 sf i_f st i_t) in
  let t := br_to (branch_get_output y r u1 u2 sf i_f st i_t) in
  each3 y (fun u i s => s = line_factor y * u * i) (n_u nf) (b_i f) (b_s f) /\
  each3 y (fun p q s => p * p + q * q = s * s /\ 0 <= s) (b_p f) (b_q f) (b_s f) /\
  each3 y (fun u i s => s = line_factor y * u * i) (n_u nt) (b_i t) (b_s t) /\
  each3 y (fun p q s => p * p + q * q = s * s /\ 0 <= s) (b_p t) (b_q t) (b_s t).
Proof.
  intros y r u1 u2 uf i_f sf ut i_t st injf injt U1 U2 E1 E2. cbv zeta. cbn [branch_get_output br_from br_to].
  destruct (side_power y u1 uf i_f sf injf U1 E1) as [A B].
  destruct (side_power y u2 ut i_t st injt U2 E2) as [D E].
  split; [exact A|split; [exact B|split; [exact D|exact E]]].
Qed.

(** ... at every side of a three-winding transformer... *)
Theorem C59_branch3_power_is_voltage_times_current :
  forall (y : symmetry) (sn1 sn2 sn3 u1 u2 u3 : R) (v1 i1 s1 v2 i2 s2 v3 i3 s3 inj1 inj2 inj3 : val y C),
  0 < u1 -> 0 < u2 -> 0 < u3 ->
  each3 y (fun u i s => s = cmul u (conj i)) v1 i1 s1 ->
  each3 y (fun u i s => s = cmul u (conj i)) v2 i2 s2 ->
  each3 y (fun u i s => s = cmul u (conj i)) v3 i3 s3 ->
  let o := branch3_get_output y sn1 sn2 sn3 u1 u2 u3 s1 i1 s2 i2 s3 i3 in
  let good u_rated v inj (b : side_output y) :=
    each3 y (fun u i s => s = line_factor y * u * i) (n_u (node_get_output y u_rated v inj)) (b_i b) (b_s b) /\
    each3 y (fun p q s => p * p + q * q = s * s /\ 0 <= s) (b_p b) (b_q b) (b_s b) in
  good u1 v1 inj1 (b3_1 o) /\ good u2 v2 inj2 (b3_2 o) /\ good u3 v3 inj3 (b3_3 o).
Proof.
  intros y sn1 sn2 sn3 u1 u2 u3 v1 i1 s1 v2 i2 s2 v3 i3 s3 inj1 inj2 inj3 U1 U2 U3 E1 E2 E3. cbv zeta.
  cbn [branch3_get_output b3_1 b3_2 b3_3].
  split; [|split]; apply side_power; assumption.
Qed.

(** ... and for an appliance *)
Theorem C59_appliance_power_is_voltage_times_current :
  forall (y : symmetry) (k : appliance) (u_rated : R) (u i s inj : val y C),
  0 < u_rated ->
  each3 y (fun u i s => s = cmul u (conj i)) u i s ->
  let n := node_get_output y u_rated u inj in
  let o := appliance_get_output y k u_rated s i in
  each3 y (fun u i s => s = line_factor y * u * i) (n_u n) (a_i o) (a_s o) /\
  each3 y (fun p q s => p * p + q * q = s * s /\ 0 <= s) (a_p o) (a_q o) (a_s o).
Proof.
  assert (D : forall k, injection_direction k * injection_direction k = 1) by (intros []; simpl; ring).
  assert (PP : forall y k s, (base_power y * re s * injection_direction k) * (base_power y * re s * injection_direction k)
    + (base_power y * im s * injection_direction k) * (base_power y * im s * injection_direction k)
    = (base_power y * cabs s) * (base_power y * cabs s) /\ 0 <= base_power y * cabs s).
  { intros y k s. destruct (power_parts y s) as [P1 P2]. split; [|exact P2]. rewrite <- P1.
    specialize (D k).
    transitivity ((injection_direction k * injection_direction k) *
      (base_power y * re s * (base_power y * re s) + base_power y * im s * (base_power y * im s))); [ring|rewrite D; ring]. }
  intros y k u_rated u i s inj U E. destruct y; cbn in *.
  - split; [apply (power_scalar symmetric); assumption|apply (PP symmetric)].
  - destruct u as [[u1 u2] u3], i as [[i1 i2] i3], s as [[s1 s2] s3]. cbn in *. destruct E as (E1 & E2 & E3).
    split; [repeat split; apply (power_scalar asymmetric); assumption|].
    split; [|split]; apply (PP asymmetric).
Qed.

(** the power factor is the active over the apparent power, between -1 and 1, and 0 without power *)
Theorem C59_power_factor :
  forall (y : symmetry) (k : appliance) (u_rated : R) (s i : val y C),
  let o := appliance_get_output y k u_rated s i in
  each3 y (fun p s pf => -1 <= pf <= 1 /\ (numerical_tolerance <= s -> pf * s = p) /\ (s < numerical_tolerance -> pf = 0))
    (a_p o) (a_s o) (a_pf o).
Proof.
  assert (K : forall y k (s : C), let p := base_power y * re s * injection_direction k in let sa := base_power y * cabs s in
     -1 <= power_factor p sa <= 1 /\ (numerical_tolerance <= sa -> power_factor p sa * sa = p) /\ (sa < numerical_tolerance -> power_factor p sa = 0)).
  { intros y k s. cbv zeta. unfold power_factor. pose proof (base_power_pos y) as B.
    assert (T : 0 < numerical_tolerance) by (unfold numerical_tolerance; lra).
    destruct (Rlt_dec _ _) as [L|L].
    - repeat split; try lra.
    - assert (A : 0 < base_power y * cabs s) by lra.
      assert (Q : - cabs s <= re s <= cabs s).
      { pose proof (cabs_sq s) as Q. pose proof (cabs_nonneg s). unfold norm2 in Q. nra. }
      assert (Z : - (base_power y * cabs s) <= base_power y * re s * injection_direction k <= base_power y * cabs s).
      { assert (- (base_power y * cabs s) <= base_power y * re s <= base_power y * cabs s) by (split; nra).
        destruct k; simpl; lra. }
      split; [split|split].
      + apply (Rmult_le_reg_r (base_power y * cabs s)); [lra|]. unfold Rdiv. rewrite Rmult_assoc, Rinv_l by lra. lra.
      + apply (Rmult_le_reg_r (base_power y * cabs s)); [lra|]. unfold Rdiv. rewrite Rmult_assoc, Rinv_l by lra. lra.
      + intros _. unfold Rdiv. rewrite Rmult_assoc, Rinv_l by lra. ring.
      + intro; lra. }
  intros y k u_rated s i. destruct y; cbn.
  - apply (K symmetric).
  - destruct s as [[s1 s2] s3]; cbn. split; [|split]; apply (K asymmetric).
Qed.

(** ** Power balance: what flows from a node into branches is what the node reports, and is production
    minus consumption of its appliances *)
Theorem C59_node_balance :
  forall (y : symmetry) (u_rated : R) (u inj : val y C) (sides : list (R * val y C * val y C))
         (apps : list (appliance * val y C * val y C)),
  ctotal y (map (fun b => snd (fst b)) sides) = inj ->
  ctotal y (map (fun a => snd (fst a)) apps) = inj ->
  let n := node_get_output y u_rated u inj in
  let side b := side_get_output y (fst (fst b)) (snd (fst b)) (snd b) in
  let app a := appliance_get_output y (fst (fst a)) u_rated (snd (fst a)) (snd a) in
  n_p n = total y (map (fun b => b_p (side b)) sides) /\
  n_q n = total y (map (fun b => b_q (side b)) sides) /\
  n_p n = total y (map (fun a => vmap (Rmult (produces (fst (fst a)))) y (a_p (app a))) apps) /\
  n_q n = total y (map (fun a => vmap (Rmult (produces (fst (fst a)))) y (a_q (app a))) apps).
Proof.
  intros y u_rated u inj sides apps E1 E2. cbv zeta.
  assert (S1 : forall (f : C -> R) (F : (forall a b, f (cadd a b) = f a + f b) /\ f (0, 0) = 0)
      (l : list (R * val y C * val y C)),
      vmap (fun s => base_power y * f s) y (ctotal y (map (fun b => snd (fst b)) l))
      = total y (map (fun b => vmap (fun x => base_power y * f x) y (snd (fst b))) l)).
  { intros f [F F0] l. induction l as [|[[r b] i] l IH]; simpl.
    - destruct y; simpl; rewrite F0; [ring|f_equal; [f_equal|]; ring].
    - rewrite <- IH. clear IH. set (c := ctotal _ _). clearbody c. destruct y; simpl in *.
      + rewrite F. ring.
      + destruct b as [[b1 b2] b3], c as [[c1 c2] c3]; simpl. rewrite !F. f_equal; [f_equal|]; ring. }
  assert (S2 : forall (f : C -> R) (F : (forall a b, f (cadd a b) = f a + f b) /\ f (0, 0) = 0)
      (l : list (appliance * val y C * val y C)),
      vmap (fun s => base_power y * f s) y (ctotal y (map (fun b => snd (fst b)) l))
      = total y (map (fun b => vmap (Rmult (produces (fst (fst b)))) y
             (vmap (fun x => base_power y * f x * injection_direction (fst (fst b))) y (snd (fst b)))) l)).
  { intros f [F F0] l. induction l as [|[[r b] i] l IH]; simpl.
    - destruct y; simpl; rewrite F0; [ring|f_equal; [f_equal|]; ring].
    - rewrite <- IH. clear IH. set (c := ctotal _ _). clearbody c.
      assert (D : forall x, x = produces r * (x * injection_direction r)) by (intro; destruct r; simpl; ring).
      destruct y; simpl in *.
      + rewrite F, <- D. ring.
      + destruct b as [[b1 b2] b3], c as [[c1 c2] c3]; simpl. rewrite !F, <- !D. f_equal; [f_equal|]; ring. }
  assert (FR : (forall a b, re (cadd a b) = re a + re b) /\ re (0, 0) = 0) by (split; reflexivity).
  assert (FI : (forall a b, im (cadd a b) = im a + im b) /\ im (0, 0) = 0) by (split; reflexivity).
  unfold node_get_output; simpl n_p; simpl n_q.
  split; [|split; [|split]].
  - rewrite <- E1. apply (S1 re FR).
  - rewrite <- E1. apply (S1 im FI).
  - rewrite <- E2. apply (S2 re FR).
  - rewrite <- E2. apply (S2 im FI).
Qed.

(** ** Loads and generators report the power that was specified for them, for every symmetry of the
    input and of the calculation, times its dependence on the voltage; the current belongs to it *)
Theorem C59_specified_power :
  forall (ly cs : symmetry) (t : load_type) (k : appliance) (u_rated : R) (p q : val ly R) (u inj : val cs C),
  k = load \/ k = generator ->
  each cs (fun u => u <> (0, 0)) u ->
  let r := load_result t cs (load_calc_param ly cs k p q) u in
  let o := appliance_get_output cs k u_rated (fst r) (snd r) in
  let v := n_u_pu (node_get_output cs u_rated u inj) in
  a_p o = vmap2 (fun p v => p * voltage_dependence t v) cs (share ly cs p) v /\
  a_q o = vmap2 (fun q v => q * voltage_dependence t v) cs (share ly cs q) v /\
  each3 cs (fun u i s => s = cmul u (conj i)) u (snd r) (fst r).
Proof.
  intros ly cs t k u_rated p q u inj K N. cbv zeta.
  assert (D : injection_direction k * injection_direction k = 1) by (destruct k; simpl; ring).
  assert (B3 : base_power_1p = base_power_3p / 3) by reflexivity.
  assert (PB : base_power_3p <> 0) by (unfold base_power_3p; lra).
  assert (LR : forall s v, re (load_power t s v) = re s * voltage_dependence t (cabs v)).
  { intros [x z] v; destruct t; unfold load_power, voltage_dependence, cscale; cbn [re im fst snd]; ring. }
  assert (LI : forall s v, im (load_power t s v) = im s * voltage_dependence t (cabs v)).
  { intros [x z] v; destruct t; unfold load_power, voltage_dependence, cscale; cbn [re im fst snd]; ring. }
  set (d := injection_direction k) in *.
  assert (G : forall a w, a * w = a * (d * d) * w) by (intros; rewrite D; ring).
  assert (I : forall s u, u <> (0, 0) -> s = cmul u (conj (conj (cdiv s u)))).
  { intros s v V. rewrite conj_conj, cdiv_mul by assumption. reflexivity. }
  unfold load_result, load_calc_param, appliance_get_output, node_get_output.
  cbn [fst snd a_p a_q n_u_pu].
  destruct ly, cs; cbn [val each each3 vmap vmap2 to_calculation s_specified share base_power piecewise mean_cval mean_val fst snd] in *;
    repeat match goal with x : (_ * _ * _)%type |- _ => destruct x as [[? ?] ?] end;
    cbn [each each3 vmap vmap2 to_calculation s_specified share base_power piecewise mean_cval mean_val fst snd] in *;
    fold d; repeat split; repeat (f_equal; []); rewrite ?LR, ?LI; cbn [re im fst snd]; rewrite ?B3;
    try (apply I; tauto).
  all: try (match goal with |- _ = ?b * ?w => rewrite (G b w) end; field; assumption).
  all: repeat (match goal with |- (_, _) = (_, _) => f_equal end);
     rewrite ?LR, ?LI; unfold mean_cval, mean_val, vmap; cbn [re im fst snd];
     unfold re, im; cbn [fst snd];
     match goal with |- _ = ?b * ?w => rewrite (G b w) end; field; assumption.
Qed.

(** ** Shunts *)
Lemma shunt_scalar (ya ub : C) : cmul ub (conj (cscale (-1) (cmul ya ub))) = cscale (- (cabs ub * cabs ub)) (conj ya).
Proof. rewrite cabs_sq. destruct ya, ub; unfold cmul, conj, cscale, norm2, re, im; simpl. f_equal; ring. Qed.

(** A shunt consumes g u^2 and produces b u^2, with the line voltage for a symmetric calculation and the
    phase voltage for an asymmetric one; g1, b1 count for voltages of positive (and negative) sequence,
    g0, b0 for those of zero sequence *)
Theorem C59_shunt_power_symmetric :
  forall (u_rated g1 b1 g0 b0 : R) (u inj : val symmetric C),
  0 < u_rated ->
  let r := shunt_result symmetric u_rated g1 b1 g0 b0 u in
  let o := appliance_get_output symmetric shunt u_rated (fst r) (snd r) in
  let v := n_u (node_get_output symmetric u_rated u inj) in
  a_p o = g1 * (v * v) /\ a_q o = - (b1 * (v * v)).
Proof.
  intros u_rated g1 b1 g0 b0 u inj U. cbv zeta.
  unfold appliance_get_output, node_get_output, shunt_result, shunt_current. cbn [fst snd a_p a_q n_u vmap vmap2].
  rewrite !shunt_scalar. unfold shunt_y. rewrite base_y_eq by assumption.
  unfold conj, cscale, re, im. cbn [fst snd base_power u_scale injection_direction].
  assert (base_power_3p <> 0) by (unfold base_power_3p; lra).
  cbn [val]; split; field; split; (assumption || lra).
Qed.

Lemma tensor_sequence y1 y0 x r s :
  cadd (cadd (1, 0) r) s = (0, 0) ->
  tensor_dot (cscale (/ 3) (cadd (cscale 2 y1) y0)) (cscale (/ 3) (csub y0 y1)) (x, cmul x r, cmul x s)
  = (cmul y1 x, cmul y1 (cmul x r), cmul y1 (cmul x s)).
Proof.
  destruct y1 as [g1 b1], y0 as [g0 b0], x as [x x'], r as [r r'], s as [s s'].
  unfold cadd, re, im; simpl. intro E. injection E; intros E2 E1.
  assert (S1 : s = -1 - r) by lra. assert (S2 : s' = - r') by lra. subst s s'.
  unfold tensor_dot, cscale, cmul, cadd, csub, re, im; simpl. f_equal; [f_equal|]; f_equal; field.
Qed.
Lemma tensor_zero y1 y0 x :
  tensor_dot (cscale (/ 3) (cadd (cscale 2 y1) y0)) (cscale (/ 3) (csub y0 y1)) (x, x, x)
  = (cmul y0 x, cmul y0 x, cmul y0 x).
Proof.
  destruct y1 as [g1 b1], y0 as [g0 b0], x as [x x'].
  unfold tensor_dot, cscale, cmul, cadd, csub, re, im; simpl. f_equal; [f_equal|]; f_equal; field.
Qed.
Lemma rotations_sum : cadd (cadd (1, 0) a2) a1 = (0, 0).
Proof. unfold cadd, a1, a2, re, im; simpl. f_equal; field. Qed.

Theorem C59_shunt_power_asymmetric :
  forall (u_rated g1 b1 g0 b0 : R) (x : C) (inj : val asymmetric C),
  0 < u_rated ->
  let power u := let r := shunt_result asymmetric u_rated g1 b1 g0 b0 u in
                 appliance_get_output asymmetric shunt u_rated (fst r) (snd r) in
  let v u := n_u (node_get_output asymmetric u_rated u inj) in
  (forall u, balanced_phasors u \/ balanced_phasors (let '(ua, ub, uc) := u in (ua, uc, ub)) ->
     each2 asymmetric (fun p v => p = g1 * (v * v)) (a_p (power u)) (v u) /\
     each2 asymmetric (fun q v => q = - (b1 * (v * v))) (a_q (power u)) (v u)) /\
  (forall u, u = (x, x, x) ->
     each2 asymmetric (fun p v => p = g0 * (v * v)) (a_p (power u)) (v u) /\
     each2 asymmetric (fun q v => q = - (b0 * (v * v))) (a_q (power u)) (v u)).
Proof.
  intros u_rated g1 b1 g0 b0 x inj U.
  assert (NZ : base_power_3p <> 0) by (unfold base_power_3p; lra). pose proof sqrt3_pos as S3.
  pose proof sqrt3_sq as Q3.
  assert (KP : forall g b w, base_power_1p * re (cscale (- (cabs w * cabs w)) (conj (shunt_y u_rated g b))) * -1
     = g * (/ sqrt 3 * u_rated * cabs w * (/ sqrt 3 * u_rated * cabs w))).
  { intros. unfold shunt_y. rewrite base_y_eq by assumption. unfold conj, cscale, re, im, base_power_1p. cbn [fst snd].
    replace 3 with (sqrt 3 * sqrt 3) at 1 by assumption. field. repeat split; try lra; assumption. }
  assert (KQ : forall g b w, base_power_1p * im (cscale (- (cabs w * cabs w)) (conj (shunt_y u_rated g b))) * -1
     = - (b * (/ sqrt 3 * u_rated * cabs w * (/ sqrt 3 * u_rated * cabs w)))).
  { intros. unfold shunt_y. rewrite base_y_eq by assumption. unfold conj, cscale, re, im, base_power_1p. cbn [fst snd].
    replace 3 with (sqrt 3 * sqrt 3) at 1 by assumption. field. repeat split; try lra; assumption. }
  cbv zeta. split.
  - intros [[ua ub] uc] B.
    assert (T : tensor_dot (cscale (/ 3) (cadd (cscale 2 (shunt_y u_rated g1 b1)) (shunt_y u_rated g0 b0)))
         (cscale (/ 3) (csub (shunt_y u_rated g0 b0) (shunt_y u_rated g1 b1))) (ua, ub, uc)
       = (cmul (shunt_y u_rated g1 b1) ua, cmul (shunt_y u_rated g1 b1) ub, cmul (shunt_y u_rated g1 b1) uc)).
    { cbn [balanced_phasors] in B. rewrite <- a1_cexp, <- a2_cexp in B. pose proof rotations_sum as RS.
      destruct B as [[-> ->]|[-> ->]]; apply tensor_sequence.
      - exact RS.
      - rewrite <- RS. unfold cadd, re, im; simpl. f_equal; ring. }
    unfold appliance_get_output, node_get_output, shunt_result, shunt_current.
    cbn [fst snd a_p a_q n_u]. rewrite T. cbn [vmap vmap2 fst snd each2]. rewrite !shunt_scalar.
    cbn [base_power u_scale injection_direction].
    repeat split; auto.
  - intros u ->. unfold appliance_get_output, node_get_output, shunt_result, shunt_current.
    cbn [fst snd a_p a_q n_u]. rewrite tensor_zero. cbn [vmap vmap2 fst snd each2]. rewrite !shunt_scalar.
    cbn [base_power u_scale injection_direction].
    repeat split; auto.
Qed.

(** ** Concrete cases *)
Lemma one_nonzero : ((1, 0) : C) <> (0, 0).
Proof. intro E. injection E. lra. Qed.
(** a symmetric flow at rated voltage on a node of 10 kV, lagging *)
Example C59_branch_power_example :
  0 < 10000 /\ each3 symmetric (fun u i s => s = cmul u (conj i)) ((1, 0) : C) ((1 / 2, - (1 / 4)) : C) ((1 / 2, 1 / 4) : C).
Proof. split; [lra|]. cbn. unfold cmul, conj, re, im; cbn [fst snd]. f_equal; field. Qed.
(** three different phases *)
Example C59_appliance_power_example :
  each3 asymmetric (fun u i s => s = cmul u (conj i))
    ((1, 0), (0, 1), (1, 1)) ((2, 0), (0, 3), (1, 0)) ((2, 0), (3, 0), (1, 1)).
Proof. cbn. unfold cmul, conj, re, im; cbn [fst snd]. repeat split; f_equal; field. Qed.
(** a node with a source, a load and one branch *)
Example C59_node_balance_example :
  ctotal symmetric (map (fun b : R * val symmetric C * val symmetric C => snd (fst b)) [(10000, (3, 1), (0, 0))]) = (3, 1) /\
  ctotal symmetric (map (fun a : appliance * val symmetric C * val symmetric C => snd (fst a)) [(source, (5, 2), (0, 0)); (load, (-2, -1), (0, 0))]) = (3, 1) /\
  a_p (appliance_get_output symmetric load 10000 (-2, -1) (0, 0)) = 2000000.
Proof.
  cbn. unfold cadd, re, im; cbn [fst snd]. unfold base_power_3p. repeat split; try (f_equal; ring); ring.
Qed.
(** an asymmetric load of 0.3, 0.6 and 0.9 MW in a symmetric calculation takes 1.8 MW at rated voltage *)
Example C59_specified_power_example :
  a_p (appliance_get_output symmetric load 10000
     (fst (load_result const_y symmetric (load_calc_param asymmetric symmetric load (300000, 600000, 900000) (0, 0, 0)) (1, 0)))
     (snd (load_result const_y symmetric (load_calc_param asymmetric symmetric load (300000, 600000, 900000) (0, 0, 0)) (1, 0))))
  = 1800000.
Proof.
  destruct (C59_specified_power asymmetric symmetric const_y load 10000 (300000, 600000, 900000) (0, 0, 0) (1, 0) (0, 0)
    (or_introl eq_refl) one_nonzero) as [E _].
  cbv zeta in E. rewrite E. cbn.
  replace (cabs (1, 0)) with 1 by (symmetry; apply cabs_unique; [lra|unfold norm2; simpl; ring]). ring.
Qed.
Example C59_shunt_example : balanced_phasors ((1, 0), a2, a1).
Proof. cbn. rewrite <- a1_cexp, <- a2_cexp. unfold cmul, a1, a2, re, im; cbn [fst snd]. split; f_equal; ring. Qed.

Print Assumptions C59_branch_power_is_voltage_times_current.
Print Assumptions C59_branch3_power_is_voltage_times_current.
Print Assumptions C59_appliance_power_is_voltage_times_current.
Print Assumptions C59_power_factor.
Print Assumptions C59_node_balance.
Print Assumptions C59_specified_power.
Print Assumptions C59_shunt_power_symmetric.
Print Assumptions C59_shunt_power_asymmetric.
