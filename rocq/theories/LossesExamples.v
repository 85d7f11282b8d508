(** C63, whole grids: the active powers injected at the buses add up to at least zero. *)
From Coq Require Import Reals ZArith Bool List Lra Lia Field Psatz.
From Verif Require Import Common NatMap GroupedIdx Phasor YBus YBusSpec YBusProps YBusFlow Component TwoPort TwoPortSpec Taps Units Ratings RatingsSpec LossesSpec LossesFacts LossesProps LossesMore LossesGrid.
Import ListNotations.
Local Open Scope R_scope.

(** complex numbers over the reals, in the form of [Phasor.v] *)
Definition rsym : phasor_ops C C := sym_ops 0 Rplus Rmult Rminus Ropp.
Definition rasym := asym_ops 0 Rplus Rmult Rminus Ropp.
Lemma R_ring : ring_theory 0 1 Rplus Rmult Rminus Ropp eq. Proof. exact RTheory. Qed.
(** parameters of branches and shunts as the matrix of admittances takes them *)
Definition one_phase (q : two_port C) : branch_param := mkBranchParam (TwoPort.yff q) (TwoPort.yft q) (TwoPort.ytf q) (TwoPort.ytt q).
Definition rows (m : @mat C) : C * C * C * (C * C * C) * (C * C * C) :=
  ((m PhA PhA, m PhA PhB, m PhA PhC), (m PhB PhA, m PhB PhB, m PhB PhC), (m PhC PhA, m PhC PhB, m PhC PhC)).
Definition three_phases (q : two_port mat) : branch_param := mkBranchParam (rows (TwoPort.yff q)) (rows (TwoPort.yft q)) (rows (TwoPort.ytf q)) (rows (TwoPort.ytt q)).
Definition phases_of (v : C * C * C) : phase -> C := fun p => match p, v with PhA, (a, _, _) => a | PhB, (_, b, _) => b | PhC, (_, _, c) => c end.
Definition total (v : C * C * C) : R := let '(a, b, c) := v in re a + re b + re c.

Theorem C63_grid_symmetric : forall (t : math_topo) (s : y_structure) (p0 : @model_param C unit) (l : list (y_update C unit)) (u : list C),
  sub_grid_ok t -> build_structure t = Some s -> params_fit t p0 -> Forall (update_fits t (length (p_source p0))) l ->
  let y := y_run (o_yadd rsym) (o_y0 rsym) s l (new_y_bus (o_yadd rsym) (o_y0 rsym) s p0) in
  (forall b, In b (p_branch (yb_param y)) -> exists q, passive q /\ b = one_phase q) -> (forall g, In g (p_shunt (yb_param y)) -> 0 <= re g) ->
  0 <= re (usum rsym (calculate_injection (o_u0 rsym) (o_uadd rsym) (o_umul rsym) (o_conj rsym) (o_dot rsym) s y u)).
Proof.
  intros t s p0 l u ok E Hf HF y HB HS.
  apply (C63_no_generation rsym (sym_laws _ _ _ _ _ _ R_ring) t ok re eq_refl (fun a b => eq_refl) s p0 l u E Hf HF).
  - intros b Hb uf ut. destruct (HB b Hb) as (q & Hq & ->). exact (Hq uf ut _ _ (Logic.conj eq_refl eq_refl)).
  - intros g Hg v. specialize (HS g Hg). destruct g as [g b], v as [v v']. cbn [rsym sym_ops o_umul o_conj o_dot] in *. unfold Phasor.cmul, Phasor.cconj, re in *. cbn [fst snd] in *.
    match goal with |- 0 <= ?e => replace e with (g * (v * v + v' * v')) by ring end. apply Rmult_le_pos; [exact HS|]. pose proof (Rle_0_sqr v). pose proof (Rle_0_sqr v'). unfold Rsqr in *. lra.
Qed.
Theorem C63_grid_asymmetric : forall (t : math_topo) (s : y_structure) (p0 : @model_param _ unit) (l : list (y_update _ unit)) (u : list (C * C * C)),
  sub_grid_ok t -> build_structure t = Some s -> params_fit t p0 -> Forall (update_fits t (length (p_source p0))) l ->
  let y := y_run (o_yadd rasym) (o_y0 rasym) s l (new_y_bus (o_yadd rasym) (o_y0 rasym) s p0) in
  (forall b, In b (p_branch (yb_param y)) -> exists q, passive3 q /\ b = three_phases q) ->
  (forall g, In g (p_shunt (yb_param y)) -> exists y1 y0 : C, 0 <= re y1 /\ 0 <= re y0 /\ g = rows (tensor2 (cdiv (cadd (cmul (2, 0) y1) y0) (3, 0)) (cdiv (csub y0 y1) (3, 0)))) ->
  0 <= total (usum rasym (calculate_injection (o_u0 rasym) (o_uadd rasym) (o_umul rasym) (o_conj rasym) (o_dot rasym) s y u)).
Proof.
  intros t s p0 l u ok E Hf HF y HB HS.
  assert (A : forall m v, total (o_umul rasym v (o_conj rasym (o_dot rasym (rows m) v))) = active3 (phases_of v) (dotv complex_ops m (phases_of v))).
  { intros m [[a b] c]. reflexivity. }
  apply (C63_no_generation rasym (asym_laws _ _ _ _ _ _ R_ring) t ok total) with (p0 := p0) (l := l) (u := u); auto.
  - cbn. unfold re. cbn. ring.
  - intros [[a b] c] [[a' b'] c']. cbn. unfold re. cbn. ring.
  - intros b Hb uf ut. destruct (HB b Hb) as (q & Hq & ->). destruct uf as [[fa fb] fc], ut as [[ta tb] tc].
    exact (Hq (phases_of (fa, fb, fc)) (phases_of (ta, tb, tc)) _ _ (Logic.conj (fun p => eq_refl) (fun p => eq_refl))).
  - intros g Hg v. destruct (HS g Hg) as (y1 & y0 & H1 & H0 & ->). rewrite A. now apply pm_tensor.
Qed.

(** ** Components that meet the conditions *)
Definition some_line : line_in := mkLineIn (1 / 10) (2 / 10) (1 / 1000000) (1 / 100) (3 / 10) (6 / 10) (1 / 2000000) (1 / 50).
Example some_line_passive : exists b, line_new 50 10000 10000 some_line = Some b /\ never_generates b.
Proof.
  eexists. assert (E : line_new 50 10000 10000 some_line = Some (KLine (line_series 10000 (1 / 10) (2 / 10)) (line_shunt 50 10000 (1 / 1000000) (1 / 100)) (line_series 10000 (3 / 10) (6 / 10)) (line_shunt 50 10000 (1 / 2000000) (1 / 50)))).
  { unfold line_new. destruct (Rlt_dec _ _) as [H|H]; [rewrite Rminus_eq_0, Rabs_R0 in H; unfold numerical_tolerance in H; lra|reflexivity]. }
  split; [exact E|]. apply (C63_line 50 10000 10000 some_line _ E); cbn [some_line li_r1 li_r0 li_c1 li_tan1 li_c0 li_tan0]; lra.
Qed.
(** a transformer Dyn11 with a tap changer two steps from its nominal position, an earthed neutral and losses *)
Definition some_transformer : transformer_in :=
  mkTransformerIn 10500 420 630000 (4 / 100) 4800 (1 / 100) 800 None None Delta WyeN 11 true (mkTapsIn 2 (-2) 2 0) 250 None None None None None None (Some 5) (Some 1).
Example some_transformer_passive : exists t clock, transformer_new (tr_taps some_transformer) 11 Delta WyeN = Some (t, clock) /\ tap_voltage real_ops t 10500 250 <> 10500 /\
  never_generates (KTransformer (transformer_at t clock some_transformer 10000 400)).
Proof.
  do 2 eexists. split; [reflexivity|]. 
  assert (T : tap_voltage real_ops (taps_new (mkTapsIn 2 (-2) 2 0)) 10500 250 = 11000) by (unfold tap_voltage; cbn -[IZR]; cbn; lra).
  split; [cbn [tr_taps some_transformer]; rewrite T; lra|].
  match goal with |- never_generates (KTransformer (transformer_at ?t ?c _ _ _)) => pose proof (C63_transformer t c some_transformer 10000 400) as H end.
  cbn [some_transformer tr_taps tr_tap_at_from tr_u1 tr_u2 tr_tap_size tr_pk tr_pk_min tr_pk_max tr_p0 tr_p0_zero tr_i0_zero tr_i0 tr_r_from tr_r_to tr_sn] in H. rewrite T in H.
  apply H; try lra. unfold adjust, tap_adjust_impedance. cbn -[IZR]. lra.
Qed.
(** four wires: 3 ohm each, coupled to each other with 1 ohm *)
Definition wires4 : tri4 := mkTri4 (mkTri 3 3 3 1 1 1) 3 1 1 1.
Example wires4_dissipative : dissipative_series (four_wires wires4 wires4) /\ alike (t4_abc wires4) /\ t_na wires4 = t_nb wires4.
Proof.
  split; [|split; [split|]; reflexivity]. split; [|cbn; intros [= E]; lra]. intros x. cbv zeta. unfold of_tri4, of_tri, tensor6. cbn [wires4 t4_abc t_nn t_na t_nb t_nc t_aa t_bb t_cc t_ba t_ca t_cb].
  generalize (x (conductor PhA)), (x (conductor PhB)), (x (conductor PhC)), (x neutral). intros a b c n.
  match goal with |- 0 <= ?e => replace e with (2 * (a * a + b * b + c * c + n * n) + (a + b + c + n) * (a + b + c + n)) by ring end.
  pose proof (Rle_0_sqr a). pose proof (Rle_0_sqr b). pose proof (Rle_0_sqr c). pose proof (Rle_0_sqr n). pose proof (Rle_0_sqr (a + b + c + n)). unfold Rsqr in *. lra.
Qed.
(** the sub-grid of C21 with three lines, one open, a link and a generic branch with an angle, two shunts *)
Example some_grid : exists line : branch_kind, line_new 50 10000 10000 some_line = Some line /\
  let q fs ts b := one_phase (calc_param_sym complex_ops fs ts true b) in
  let p0 := mkParam [q true true line; q true true link_new; q true true (generic_new 400 (mkGenericIn 1 2 (1 / 10) (- 1) (Some (21 / 20)) (Some 7))); q true false line; q true true line] [(1, 4); (0, 1)] [] : @model_param C unit in
  params_fit demo_grid p0 /\ forall s, build_structure demo_grid = Some s -> forall u,
  0 <= re (usum rsym (calculate_injection (o_u0 rsym) (o_uadd rsym) (o_umul rsym) (o_conj rsym) (o_dot rsym) s (new_y_bus (o_yadd rsym) (o_y0 rsym) s p0) u)).
Proof.
  destruct some_line_passive as (line & E & N). exists line. split; [exact E|]. intros q p0. assert (F : params_fit demo_grid p0) by (split; reflexivity). split; [exact F|]. intros s Es u.
  assert (Y : forall x : y_bus, yb_param (update_admittance (o_yadd rsym) (o_y0 rsym) s p0 x) = p0) by (intros x; unfold update_admittance; destruct (register_entries s p0); reflexivity).
  apply (C63_grid_symmetric demo_grid s p0 [] u demo_grid_ok Es F (Forall_nil _)); unfold y_run, new_y_bus; cbn [fold_left]; rewrite Y.
  - assert (HQ : forall fs ts b, never_generates b -> exists x, passive x /\ q fs ts b = one_phase x) by (intros fs ts b Nb; exists (calc_param_sym complex_ops fs ts true b); split; [apply (Nb fs ts true)|reflexivity]).
    assert (NG : never_generates (generic_new 400 (mkGenericIn 1 2 (1 / 10) (- 1) (Some (21 / 20)) (Some 7)))) by (apply C63_generic_branch; cbn [gi_r1 gi_g1 gi_k]; lra).
    intros b Hb. unfold p0 in Hb. cbn [p_branch In] in Hb. destruct Hb as [<-|[<-|[<-|[<-|[<-|[]]]]]]; apply HQ; auto using C63_link.
  - intros g Hg. unfold p0 in Hg. cbn [p_shunt In] in Hg. destruct Hg as [<-|[<-|[]]]; unfold re; cbn [fst]; lra.
Qed.

Print Assumptions C63_line.
Print Assumptions C63_link.
Print Assumptions C63_generic_branch.
Print Assumptions C63_transformer.
Print Assumptions C63_three_winding.
Print Assumptions C63_asym_line.
Print Assumptions C63_asym_line_symmetric.
Print Assumptions C63_asym_line_symmetric_refuted.
Print Assumptions C63_shunt.
Print Assumptions C63_conservation.
Print Assumptions C63_no_generation.
Print Assumptions C63_grid_symmetric.
Print Assumptions C63_grid_asymmetric.
