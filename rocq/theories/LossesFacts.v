(** Proofs for C63. *)
From Coq Require Import Reals ZArith Bool List Lra Lia Field Psatz.
From Verif Require Import Common Component TwoPort TwoPortSpec TwoPortFacts TwoPortProps Taps Units UnitsFacts Ratings RatingsSpec RatingsFacts RatingsProps RatingsZero LossesSpec.
Import ListNotations.
Local Open Scope R_scope.

Lemma re_inv z : 0 <= re z -> 0 <= re (cinv z).
Proof.
  intros H. unfold cinv. cbn [re fst]. fold (re z) (norm2 z). destruct (Req_dec (norm2 z) 0) as [E|E].
  - rewrite E. unfold Rdiv. rewrite Rinv_0, Rmult_0_r. lra.
  - assert (0 < norm2 z) by (pose proof (Rle_0_sqr (re z)); pose proof (Rle_0_sqr (im z)); unfold norm2, Rsqr in *; lra).
    apply Rmult_le_pos; [exact H|]. apply Rlt_le, Rinv_0_lt_compat. assumption.
Qed.
Lemma re_add a b : re (cadd a b) = re a + re b. Proof. reflexivity. Qed.
Lemma re_scale k a : re (cscale k a) = k * re a. Proof. reflexivity. Qed.
Lemma norm2_nn z : 0 <= norm2 z.
Proof. pose proof (Rle_0_sqr (re z)); pose proof (Rle_0_sqr (im z)); unfold norm2, Rsqr in *; lra. Qed.
Lemma one_div z : cdiv (1, 0) z = cinv z. Proof. unfold cdiv. unfold cmul, cinv. apply c_eq; unfold re, im; cbn [fst snd]; ring. Qed.
Lemma two_div z : re (cdiv (2, 0) z) = 2 * re (cinv z). Proof. unfold cdiv, cmul, re, im; cbn [fst snd]. ring. Qed.
Lemma real_div a k : cdiv a (k, 0) = cscale (/ k) a.
Proof.
  destruct (Req_dec k 0) as [->|K]; [|apply div_real; exact K]. unfold cdiv, cinv, norm2, cmul, cscale, re, im. cbn [fst snd].
  replace (0 * 0 + 0 * 0) with 0 by ring. unfold Rdiv. rewrite Rinv_0. f_equal; ring.
Qed.
Lemma half_mul y : cmul (half complex_ops) y = cscale (/ 2) y.
Proof. unfold half. rewrite two_c. cbn [complex_ops c_div c_1]. rewrite real_div. creal; ring. Qed.
(** seen from one end, with the other open *)
Lemma open_end_passive ys ysh : 0 <= re ys -> 0 <= re ysh ->
  0 <= re (if c_small complex_ops ysh then c_0 complex_ops else
    c_add complex_ops (c_mul complex_ops (half complex_ops) ysh) (c_div complex_ops (c_1 complex_ops) (c_add complex_ops (c_div complex_ops (c_1 complex_ops) ys) (c_div complex_ops (two complex_ops) ysh)))).
Proof.
  intros A B. destruct (c_small complex_ops ysh); [cbn; lra|]. rewrite two_c. cbn [complex_ops c_add c_mul c_div c_1]. rewrite half_mul, !one_div, re_add, re_scale.
  assert (0 <= re (cinv (cadd (cinv ys) (cdiv (2, 0) ysh)))); [|lra]. apply re_inv. rewrite re_add, two_div. pose proof (re_inv _ A). pose proof (re_inv _ B). lra.
Qed.
Lemma active_self y u : active u (cmul y u) = re y * norm2 u.
Proof. unfold active, cmul, conj, norm2, re, im; cbn [fst snd]. ring. Qed.
Lemma passive_diagonal a d : 0 <= re a -> 0 <= re d -> passive (mkTwoPort a (0, 0) (0, 0) d).
Proof.
  intros A D uf ut i_f i_t [-> ->]. cbn [yff yft ytf ytt complex_ops c_add c_mul].
  replace (cadd (cmul a uf) (cmul (0, 0) ut)) with (cmul a uf) by (creal; ring). replace (cadd (cmul (0, 0) uf) (cmul d ut)) with (cmul d ut) by (creal; ring).
  rewrite !active_self. pose proof (norm2_nn uf). pose proof (norm2_nn ut). apply Rplus_le_le_0_compat; apply Rmult_le_pos; assumption.
Qed.
Lemma passive_0 : passive (two_port0 complex_ops). Proof. apply passive_diagonal; cbn; lra. Qed.
Lemma passive_y fs ts ys ysh n : 0 <= re ys -> 0 <= re ysh -> n <> (0, 0) -> passive (calc_param_y_sym complex_ops fs ts ys ysh n).
Proof.
  intros A B N. unfold calc_param_y_sym. pose proof (open_end_passive ys ysh A B) as H.
  destruct (negb (fs && ts)) eqn:E.
  - destruct (fs || ts); [|apply passive_0]. cbv zeta. generalize dependent (if c_small complex_ops ysh then c_0 complex_ops else
    c_add complex_ops (c_mul complex_ops (half complex_ops) ysh) (c_div complex_ops (c_1 complex_ops) (c_add complex_ops (c_div complex_ops (c_1 complex_ops) ys) (c_div complex_ops (two complex_ops) ysh)))).
    intros b Hb. apply passive_diagonal; [destruct fs; [|cbn; lra]|destruct ts; [exact Hb|cbn; lra]].
    cbn [complex_ops c_abs c_div c_mul c_1]. rewrite !real_div. replace (cmul (cscale (/ cabs n) (cscale (/ cabs n) (1, 0))) b) with (cscale (/ cabs n * / cabs n) b) by (creal; ring).
    rewrite re_scale. apply Rmult_le_pos; [|exact Hb]. pose proof (Rle_0_sqr (/ cabs n)). exact H.
  - clear H E. cbv zeta. intros uf ut i_f i_t [-> ->]. cbn [yff yft ytf ytt]. cbn [complex_ops c_abs c_div c_mul c_1 c_add c_neg c_conj]. rewrite !half_mul, !real_div.
    assert (P : 0 < norm2 n) by (apply norm2_pos; exact N). assert (K : / cabs n * / cabs n = / norm2 n).
    { rewrite <- Rinv_mult. f_equal. unfold cabs. apply sqrt_sqrt. lra. }
    set (w := cdiv uf n).
    assert (W : active uf (cadd (cmul (cmul (cscale (/ cabs n) (cscale (/ cabs n) (1, 0))) (cadd ys (cscale (/ 2) ysh))) uf) (cmul (cmul (cdiv (cneg (1, 0)) (conj n)) ys) ut))
             + active ut (cadd (cmul (cmul (cdiv (cneg (1, 0)) n) ys) uf) (cmul (cadd ys (cscale (/ 2) ysh)) ut))
             = re ys * norm2 (csub w ut) + / 2 * re ysh * (norm2 w + norm2 ut)).
    { rewrite scale_scale, K. unfold w. unfold active, cdiv, cmul, cadd, csub, cneg, cinv, conj, cscale, norm2, re, im in *; cbn [fst snd] in *.
      replace (- snd n * - snd n) with (snd n * snd n) by ring. field. lra. }
    rewrite W. pose proof (norm2_nn (csub w ut)). pose proof (norm2_nn w). pose proof (norm2_nn ut).
    apply Rplus_le_le_0_compat; apply Rmult_le_pos; lra.
Qed.

(** ** Three phases by symmetrical components *)
Lemma rot4 : c_rot complex_ops 4 = (- (1 / 2), sqrt 3 / 2).
Proof.
  cbn [complex_ops c_rot]. replace (IZR 4 * (PI / 6)) with (2 * (PI / 3)) by (simpl; field). unfold cexp. rewrite cos_2PI3, sin_2PI3. f_equal. lra.
Qed.
Lemma rot8 : c_rot complex_ops 8 = (- (1 / 2), - (sqrt 3 / 2)).
Proof.
  change 8%Z with (4 + 4)%Z. rewrite (rl_add complex_ops complex_rots), rot4. cbn [complex_ops c_mul]. pose proof sqrt3_sq as S.
  unfold cmul, re, im; cbn [fst snd]. f_equal; [|field]. replace (- (1 / 2) * - (1 / 2) - sqrt 3 / 2 * (sqrt 3 / 2)) with (1 / 4 - sqrt 3 * sqrt 3 / 4) by field. rewrite S. field.
Qed.
Definition composed (a0 a1 a2 : C) : phase -> C := fun p => cadd (cadd (cmul a0 (equal_phases complex_ops p)) (cmul a1 (positive complex_ops p))) (cmul a2 (negative complex_ops p)).
Lemma decompose (u : phase -> C) : exists a0 a1 a2, veq u (composed a0 a1 a2).
Proof.
  exists (cscale (/ 3) (cadd (cadd (u PhA) (u PhB)) (u PhC))),
    (cscale (/ 3) (cadd (cadd (u PhA) (cmul (c_rot complex_ops 4) (u PhB))) (cmul (c_rot complex_ops 8) (u PhC)))),
    (cscale (/ 3) (cadd (cadd (u PhA) (cmul (c_rot complex_ops 8) (u PhB))) (cmul (c_rot complex_ops 4) (u PhC)))).
  pose proof sqrt3_sq as S. intros p. unfold composed, equal_phases, positive, negative. rewrite rot4, rot8. cbn [complex_ops c_1].
  destruct p; cbv iota; apply c_eq; unfold cadd, cmul, cscale, re, im; cbn [fst snd]; field [S].
Qed.
Lemma active_composed a0 a1 a2 b0 b1 b2 : active3 (composed a0 a1 a2) (composed b0 b1 b2) = 3 * (active a0 b0 + active a1 b1 + active a2 b2).
Proof.
  pose proof sqrt3_sq as S. unfold active3, active, composed, equal_phases, positive, negative. rewrite rot4, rot8. cbn [complex_ops c_1]. unfold cadd, cmul, conj, re, im; cbn [fst snd]. field [S].
Qed.
Lemma active3_ext u u' i i' : veq u u' -> veq i i' -> active3 u i = active3 u' i'.
Proof. intros H H'. unfold active3. rewrite !H, !H'. reflexivity. Qed.
Lemma dot_composed m a0 a1 a2 i0 i1 i2 :
  veq (dotv complex_ops m (vscale complex_ops a0 (equal_phases complex_ops))) (vscale complex_ops i0 (equal_phases complex_ops)) ->
  veq (dotv complex_ops m (vscale complex_ops a1 (positive complex_ops))) (vscale complex_ops i1 (positive complex_ops)) ->
  veq (dotv complex_ops m (vscale complex_ops a2 (negative complex_ops))) (vscale complex_ops i2 (negative complex_ops)) ->
  veq (dotv complex_ops m (composed a0 a1 a2)) (composed i0 i1 i2).
Proof.
  intros H0 H1 H2 p. specialize (H0 p). specialize (H1 p). specialize (H2 p). unfold composed at 2. unfold vscale in *. unfold dotv in *. cbn [complex_ops c_add c_mul] in *.
  rewrite <- H0, <- H1, <- H2. unfold composed. creal; ring.
Qed.
Lemma passive_sequences p q0 q1 q2 :
  acts_as complex_ops p (positive complex_ops) q1 -> acts_as complex_ops p (negative complex_ops) q2 -> acts_as complex_ops p (equal_phases complex_ops) q0 ->
  passive q0 -> passive q1 -> passive q2 -> passive3 p.
Proof.
  intros A1 A2 A0 P0 P1 P2 uf ut i_f i_t [If It].
  destruct (decompose uf) as (f0 & f1 & f2 & Ef). destruct (decompose ut) as (t0 & t1 & t2 & Et).
  destruct (A0 f0) as (F0 & _ & F0' & _). destruct (A1 f1) as (F1 & _ & F1' & _). destruct (A2 f2) as (F2 & _ & F2' & _).
  destruct (A0 t0) as (_ & T0 & _ & T0'). destruct (A1 t1) as (_ & T1 & _ & T1'). destruct (A2 t2) as (_ & T2 & _ & T2').
  pose proof (dot_composed _ _ _ _ _ _ _ F0 F1 F2) as DF. pose proof (dot_composed _ _ _ _ _ _ _ F0' F1' F2') as DF'.
  pose proof (dot_composed _ _ _ _ _ _ _ T0 T1 T2) as DT. pose proof (dot_composed _ _ _ _ _ _ _ T0' T1' T2') as DT'.
  assert (C2 : forall x0 x1 x2 y0 y1 y2, veq (vadd complex_ops (composed x0 x1 x2) (composed y0 y1 y2)) (composed (cadd x0 y0) (cadd x1 y1) (cadd x2 y2))).
  { intros. intros x. unfold vadd, composed. cbn [complex_ops c_add]. creal; ring. }
  assert (JF : veq i_f (composed (cadd (cmul (yff q0) f0) (cmul (yft q0) t0)) (cadd (cmul (yff q1) f1) (cmul (yft q1) t1)) (cadd (cmul (yff q2) f2) (cmul (yft q2) t2)))).
  { intros x. rewrite <- C2. rewrite (If x). unfold vadd. rewrite (dot_ext complex_ops _ _ _ Ef x), (dot_ext complex_ops _ _ _ Et x), (DF x), (DT x). reflexivity. }
  assert (JT : veq i_t (composed (cadd (cmul (ytf q0) f0) (cmul (ytt q0) t0)) (cadd (cmul (ytf q1) f1) (cmul (ytt q1) t1)) (cadd (cmul (ytf q2) f2) (cmul (ytt q2) t2)))).
  { intros x. rewrite <- C2. rewrite (It x). unfold vadd. rewrite (dot_ext complex_ops _ _ _ Ef x), (dot_ext complex_ops _ _ _ Et x), (DF' x), (DT' x). reflexivity. }
  rewrite (active3_ext _ _ _ _ Ef JF), (active3_ext _ _ _ _ Et JT), !active_composed.
  pose proof (P0 f0 t0 _ _ (Logic.conj eq_refl eq_refl)) as Q0. pose proof (P1 f1 t1 _ _ (Logic.conj eq_refl eq_refl)) as Q1. pose proof (P2 f2 t2 _ _ (Logic.conj eq_refl eq_refl)) as Q2.
  cbn [complex_ops c_add c_mul] in Q0, Q1, Q2. lra.
Qed.

(** ** Transformers *)
Definition dissipative_transformer (t : @transformer_par C) : Prop :=
  0 <= re (tp_y_series t) /\ 0 <= re (tp_y_shunt t) /\ 0 <= re (tp_y0_shunt t) /\ im (tp_k t) = 0 /\ re (tp_k t) <> 0 /\
  0 <= re (tp_z_grounding_from t) /\ 0 <= re (tp_z_grounding_to t) /\ re (tp_low_susceptance t) = 0.
Lemma three_c' : three complex_ops = (3, 0). Proof. unfold three. rewrite two_c. cbn [complex_ops c_add c_1]. creal; ring. Qed.
Lemma ten_c : ten complex_ops = (10, 0). Proof. unfold ten. rewrite three_c', two_c. cbn [complex_ops c_add c_mul]. creal; ring. Qed.
Lemma three_mul z : cmul (3, 0) z = cscale 3 z. Proof. creal; ring. Qed.
Lemma passive_added p a b : passive p -> re a = 0 -> re b = 0 -> passive (mkTwoPort (cadd (yff p) a) (yft p) (ytf p) (cadd (ytt p) b)).
Proof.
  intros P A B uf ut i_f i_t [-> ->]. cbn [yff yft ytf ytt complex_ops c_add c_mul]. pose proof (P uf ut _ _ (Logic.conj eq_refl eq_refl)) as Q. cbn [complex_ops c_add c_mul] in Q.
  assert (E : forall u y x z, re x = 0 -> active u (cadd (cmul (cadd y x) u) z) = active u (cadd (cmul y u) z)).
  { intros u y x z X. unfold active, cadd, cmul, conj, re, im in *; cbn [fst snd] in *. rewrite X. ring. }
  assert (E' : forall u y x z, re x = 0 -> active u (cadd z (cmul (cadd y x) u)) = active u (cadd z (cmul y u))).
  { intros u y x z X. unfold active, cadd, cmul, conj, re, im in *; cbn [fst snd] in *. rewrite X. ring. }
  rewrite E, E' by assumption. exact Q.
Qed.
Lemma inv2_nn k x : 0 <= x -> 0 <= / k * (/ k * x).
Proof. intros H. rewrite <- Rmult_assoc. apply Rmult_le_pos; [pose proof (Rle_0_sqr (/ k)) as Q; exact Q|exact H]. Qed.
Lemma passive_param0 fs ts t : dissipative_transformer t -> passive (transformer_param0 complex_ops fs ts t).
Proof.
  intros (H1 & H2 & H3 & K0 & K1 & G1 & G2 & L). unfold transformer_param0.
  assert (P : passive (transformer_param0_path complex_ops fs ts t)).
  { unfold transformer_param0_path. assert (EK : tp_k t = (re (tp_k t), 0)) by (apply c_eq; [reflexivity|exact K0]). rewrite EK. clear EK K0. generalize dependent (re (tp_k t)). intros k K.
    rewrite ten_c, three_c'. cbn [complex_ops c_add c_mul c_div c_1 c_0].
    (* the first path *)
    set (p := if is_wye_n (tp_winding_from t) && is_wye_n (tp_winding_to t) then _ else _).
    assert (Pp : passive p /\ (is_zigzag_n (tp_winding_from t) || is_zigzag_n (tp_winding_to t) = true -> exists a d, p = mkTwoPort a (0, 0) (0, 0) d /\ 0 <= re a /\ 0 <= re d)).
    { unfold p. clear p. destruct (is_wye_n (tp_winding_from t) && is_wye_n (tp_winding_to t)) eqn:W.
      - split; [|destruct (tp_winding_from t), (tp_winding_to t); discriminate]. cbv zeta. apply passive_y.
        + rewrite !real_div, !one_div, three_mul. apply re_inv. rewrite re_add, re_scale, re_add, !re_scale. pose proof (re_inv _ H1). pose proof (inv2_nn k _ G1). lra.
        + exact H3.
        + change (cmul (k, 0) (c_rot complex_ops (if ((tp_clock t =? 2) || (tp_clock t =? 6) || (tp_clock t =? 10))%Z then 6 else 0)%Z) <> (0, 0)).
          replace (cmul (k, 0) _) with (cscale k (c_rot complex_ops (if ((tp_clock t =? 2) || (tp_clock t =? 6) || (tp_clock t =? 10))%Z then 6 else 0)%Z)) by (creal; ring).
          apply scale_nz; [exact K|]. apply clock_unit.
      - match goal with |- passive ?x /\ _ => assert (X : exists a d, x = mkTwoPort a (0, 0) (0, 0) d /\ 0 <= re a /\ 0 <= re d) end.
        { assert (Z0 : 0 <= re (0, 0)) by (cbn; lra).
          assert (Y : forall b : bool, 0 <= re (if b then cadd (tp_y0_shunt t) (tp_y_series t) else tp_y0_shunt t)) by (intros [|]; [rewrite re_add; lra|exact H3]).
          destruct (is_wye_n (tp_winding_from t) && fs); [|destruct (is_wye_n (tp_winding_to t) && ts)]; cbv zeta;
            try (match goal with |- context [if c_eq0 complex_ops ?y then _ else _] => destruct (c_eq0 complex_ops y) end); eexists _, _; (split; [reflexivity|split]); try exact Z0.
          - rewrite !real_div, !one_div, three_mul, !re_scale. apply inv2_nn, re_inv. rewrite re_add, !re_scale. pose proof (re_inv _ (Y (is_delta (tp_winding_to t)))).
            assert (0 <= / k * (/ k * (3 * re (tp_z_grounding_from t)))) by (apply inv2_nn; lra). lra.
          - rewrite !one_div, three_mul. apply re_inv. rewrite re_add, re_scale. pose proof (re_inv _ (Y (is_delta (tp_winding_from t)))). lra. }
        destruct X as (a & d & E & A & D). rewrite E. split; [apply passive_diagonal; assumption|]. intros _. exists a, d. auto. }
    destruct Pp as [Pp Pd]. clearbody p.
    assert (Q : 0 <= re (cdiv (cdiv (cdiv (1, 0) (cadd (cdiv (cdiv (1, 0) (tp_y_series t)) (10, 0)) (cdiv (cdiv (cmul (3, 0) (tp_z_grounding_from t)) (k, 0)) (k, 0)))) (k, 0)) (k, 0))).
    { rewrite !real_div, !one_div, three_mul, !re_scale. apply inv2_nn, re_inv. rewrite re_add, !re_scale. pose proof (re_inv _ H1).
      assert (0 <= / k * (/ k * (3 * re (tp_z_grounding_from t)))) by (apply inv2_nn; lra). lra. }
    assert (Q' : 0 <= re (cdiv (1, 0) (cadd (cdiv (cdiv (1, 0) (tp_y_series t)) (10, 0)) (cmul (3, 0) (tp_z_grounding_to t))))).
    { rewrite !real_div, !one_div, three_mul. apply re_inv. rewrite re_add, !re_scale. pose proof (re_inv _ H1). lra. }
    destruct (is_zigzag_n (tp_winding_from t)) eqn:ZF, (is_zigzag_n (tp_winding_to t)) eqn:ZT; cbn [orb] in Pd;
      try (destruct (Pd eq_refl) as (a & d & -> & A & D)); destruct fs, ts; cbn [andb yff yft ytf ytt]; try exact Pp; apply passive_diagonal; assumption. }
  generalize dependent (transformer_param0_path complex_ops fs ts t). intros p P.
  assert (Z : forall x : C, x = cadd x (0, 0)) by (intros; creal; ring).
  assert (E : forall b (x : C), (if b : bool then c_add complex_ops x (tp_low_susceptance t) else x) = cadd x (if b then tp_low_susceptance t else (0, 0))) by (intros [|] x; [reflexivity|apply Z]).
  rewrite !E. apply passive_added; [exact P| |]; match goal with |- re (if ?b then _ else _) = 0 => destruct b end; assumption || reflexivity.
Qed.

(** ** Coupled wires *)
Definition passive_matrix (m : @mat C) : Prop := forall u, 0 <= active3 u (dotv complex_ops m u).
Lemma active3_add u i j : active3 u (vadd complex_ops i j) = active3 u i + active3 u j.
Proof. unfold active3, active, vadd. cbn [complex_ops c_add]. unfold cadd, cmul, conj, re, im; cbn [fst snd]. ring. Qed.
Lemma active3_scale u k i : active3 u (vscale complex_ops (k, 0) i) = k * active3 u i.
Proof. unfold active3, active, vscale. cbn [complex_ops c_mul]. unfold cmul, conj, re, im; cbn [fst snd]. ring. Qed.
Lemma active3_sym u i : active3 u i = active3 i u.
Proof. unfold active3, active, cmul, conj, re, im; cbn [fst snd]. ring. Qed.
Lemma veq_refl (u : phase -> C) : veq u u. Proof. intros p. reflexivity. Qed.
Lemma pm_0 : passive_matrix (mat0 complex_ops).
Proof. intros u. unfold active3, active, dotv, mat0. cbn [complex_ops c_add c_mul c_0]. unfold cadd, cmul, conj, re, im; cbn [fst snd]. apply Req_le. ring. Qed.
Lemma pm_add m m' : passive_matrix m -> passive_matrix m' -> passive_matrix (addm complex_ops m m').
Proof.
  intros H H' u. rewrite (active3_ext _ _ _ _ (veq_refl u) (dot_add complex_ops complex_laws m m' u)), active3_add. specialize (H u). specialize (H' u). lra.
Qed.
Lemma pm_scale k m : 0 <= k -> passive_matrix m -> passive_matrix (scale complex_ops (k, 0) m).
Proof.
  intros K H u. rewrite (active3_ext _ _ _ _ (veq_refl u) (dot_scalem complex_ops complex_laws (k, 0) m u)), active3_scale. specialize (H u). now apply Rmult_le_pos.
Qed.
Lemma pm_ext m m' : (forall p q, m p q = m' p q) -> passive_matrix m -> passive_matrix m'.
Proof. intros E H u. specialize (H u). erewrite active3_ext; [exact H|apply veq_refl|]. intros p. unfold dotv. rewrite !E. reflexivity. Qed.
Lemma pm_inv m : passive_matrix m -> passive_matrix (inv complex_ops m).
Proof.
  intros H. destruct (c_eq0 complex_ops (det complex_ops m)) eqn:E.
  - apply (cl_eq0 complex_ops complex_laws) in E. apply pm_ext with (mat0 complex_ops); [|exact pm_0]. intros p q. unfold inv. rewrite E. unfold mat0. cbn [complex_ops c_div c_0].
    rewrite real_div, Rinv_0. creal; ring.
  - assert (D : det complex_ops m <> c_0 complex_ops) by (intros Q; apply (cl_eq0 complex_ops complex_laws) in Q; congruence).
    intros u. pose proof (dot_inv complex_ops complex_laws m u D) as Q. set (x := dotv complex_ops (inv complex_ops m) u) in *.
    rewrite active3_sym, (active3_ext _ _ _ _ (veq_refl x) (fun p => eq_sym (Q p))). apply H.
Qed.
Lemma half_c' : half complex_ops = (/ 2, 0). Proof. unfold half. rewrite two_c. cbn [complex_ops c_div c_1]. rewrite real_div. creal; ring. Qed.
Lemma passive3_diagonal a d : passive_matrix a -> passive_matrix d -> passive3 (mkTwoPort a (mat0 complex_ops) (mat0 complex_ops) d).
Proof.
  intros A D uf ut i_f i_t [If It]. cbn [yff yft ytf ytt] in *.
  assert (Z : forall u, veq (dotv complex_ops (mat0 complex_ops) u) (fun _ => (0, 0))) by (intros u p; unfold dotv, mat0; cbn [complex_ops c_add c_mul c_0]; creal; ring).
  assert (E : veq i_f (dotv complex_ops a uf)) by (intros p; rewrite (If p); unfold vadd; rewrite (Z ut p); cbn [complex_ops c_add]; creal; ring).
  assert (E' : veq i_t (dotv complex_ops d ut)) by (intros p; rewrite (It p); unfold vadd; rewrite (Z uf p); cbn [complex_ops c_add]; creal; ring).
  rewrite (active3_ext _ _ _ _ (veq_refl uf) E), (active3_ext _ _ _ _ (veq_refl ut) E'). specialize (A uf). specialize (D ut). lra.
Qed.
Lemma passive_asym_line fs ts ys ysh : passive_matrix ys -> passive_matrix ysh -> passive3 (asym_line_asym complex_ops fs ts ys ysh).
Proof.
  intros A B. unfold asym_line_asym. destruct (negb (fs && ts)).
  - destruct (fs || ts); [|apply passive3_diagonal; exact pm_0]. cbv zeta.
    match goal with |- context [if all_phases ?f then ?a else ?b] => assert (Q : passive_matrix (if all_phases f then a else b)) end.
    { destruct (all_phases _); [|exact pm_0]. rewrite half_c', two_c. apply pm_add; [apply pm_scale; [lra|exact B]|]. apply pm_inv, pm_add; [apply pm_inv, A|]. apply pm_scale; [lra|]. apply pm_inv, B. }
    destruct fs, ts; apply passive3_diagonal; exact Q || exact pm_0.
  - cbv zeta. rewrite half_c'. intros uf ut i_f i_t [If It]. cbn [yff yft ytf ytt] in *. rewrite (active3_ext _ _ _ _ (veq_refl uf) If), (active3_ext _ _ _ _ (veq_refl ut) It).
    pose proof (A (vsub complex_ops uf ut)) as P. pose proof (B uf) as Pf. pose proof (B ut) as Pt.
    match goal with |- 0 <= ?x => assert (E : x = active3 (vsub complex_ops uf ut) (dotv complex_ops ys (vsub complex_ops uf ut)) + / 2 * active3 uf (dotv complex_ops ysh uf) + / 2 * active3 ut (dotv complex_ops ysh ut)) end; [|lra].
    unfold active3, active, vadd, vsub, dotv, addm, negm, scale. cbn [complex_ops c_add c_mul c_sub c_neg]. unfold cadd, csub, cneg, cmul, conj, re, im; cbn [fst snd]. ring.
Qed.
(** matrices of impedances *)
Lemma pm_tri r x : dissipative (of_tri r) -> passive_matrix (fun p q => (of_tri r p q, of_tri x p q)).
Proof.
  intros H u. pose proof (H (fun p => re (u p))) as H1. pose proof (H (fun p => im (u p))) as H2. unfold of_tri, tensor6 in *.
  match goal with |- 0 <= ?v => match type of H1 with 0 <= ?a => match type of H2 with 0 <= ?b => assert (E : v = a + b) end end end; [|lra].
  unfold active3, active, dotv. cbn [complex_ops c_add c_mul]. unfold cadd, cmul, conj, re, im; cbn [fst snd]. ring.
Qed.
Lemma pm_series s : (match s with three_wires r _ => dissipative (of_tri r) | four_wires r x => dissipative4 (of_tri4 r) /\ (t_nn r, t_nn x) <> (0, 0) end) -> passive_matrix (compute_z_series_from_input s).
Proof.
  destruct s as [r x|r x]; cbn [compute_z_series_from_input]; [apply pm_tri|]. intros [H N] u.
  assert (Q : along_wires (fun v w => (of_tri4 r v w, of_tri4 x v w)) (dotv complex_ops (kron_reduction (fun v w => (of_tri4 r v w, of_tri4 x v w))) u) u).
  { apply kron_ok; [|exact N|apply veq_refl]. intros v w. rewrite (tri4_symmetric r v w), (tri4_symmetric x v w). reflexivity. }
  destruct Q as [i_n Q]. pose proof (Q (conductor PhA)) as QA. pose proof (Q (conductor PhB)) as QB. pose proof (Q (conductor PhC)) as QC. pose proof (Q neutral) as QN. cbv beta iota in QA, QB, QC, QN.
  set (i := fun w : wire => match w with conductor p => u p | neutral => i_n end). pose proof (H (fun w => re (i w))) as H1. pose proof (H (fun w => im (i w))) as H2. cbv zeta in H1, H2. unfold i in H1, H2.
  rewrite active3_sym. unfold active3. rewrite QA, QB, QC.
  assert (Z : active (0, 0) i_n = 0) by (unfold active, cmul, conj, re, im; cbn [fst snd]; ring). rewrite QN in Z.
  match goal with |- 0 <= ?v => match type of H1 with 0 <= ?a => match type of H2 with 0 <= ?b => match type of Z with ?z = 0 => assert (E : v + z = a + b) end end end end; [|lra].
  unfold of_tri4, of_tri, tensor6 in *. cbv beta iota zeta. clear. unfold active, cadd, cmul, conj, re, im; cbn [fst snd]. ring.
Qed.
