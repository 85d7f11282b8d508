(** Cases that meet the hypotheses of the theorems of C62, and what these theorems depend on. *)
From Coq Require Import Reals ZArith Bool List Lra Lia Field.
From Verif Require Import Common Component TwoPort TwoPortSpec TwoPortFacts TwoPortProps Taps Units UnitsFacts Ratings RatingsSpec RatingsFacts RatingsProps RatingsZero RatingsThree.
Import ListNotations.
Local Open Scope R_scope.

(** A line of 10 kV, of 1 + 2i ohms and a charging admittance of one millisiemens, open at its end. *)
Example half_open_line : forall fs ts, (1, 2) <> (0, 0) :> C /\ open_end_regular fs ts 10000 (1, 2) (0, 1 / 1000).
Proof.
  intros fs ts. split; [intros E; injection E; lra|]. right. split.
  - right. rewrite (cabs_unique (0, 1 / 1000) (1 / 1000)) by (try lra; unfold norm2; simpl; lra). lra.
  - intros E. apply (f_equal re) in E. unfold cadd, cscale, cinv, norm2, re, im in E. cbn [fst snd] in E.
    assert (Q : 0 + 2 * (1 / (1 * 1 + 2 * 2)) = 2 / 5) by field. lra.
Qed.

(** A transformer of 630 kVA from 10.5 kV to 420 V, Dyn11, with its tap changer two steps of 250 V away from the nominal position, between nodes of 10 kV and 400 V. *)
Definition dyn11 : transformer_in :=
  mkTransformerIn 10500 420 630000 (4 / 100) 6000 (2 / 1000) 1000 None None Delta WyeN 11 true (mkTapsIn 1 5 1 3) 250 None (Some (5 / 100)) None None None None (Some 1) (Some (1 / 10)).
Example dyn11_regular : exists t, transformer_new (tr_taps dyn11) (tr_clock dyn11) (tr_from dyn11) (tr_to dyn11) = Some (t, 11%Z) /\
  tap_voltage real_ops t (tr_u1 dyn11) (tr_tap_size dyn11) = 11000 /\
  (let uk := adjust real_ops t (4 / 100) (4 / 100) (5 / 100) in let pk := adjust real_ops t 6000 6000 6000 in
   uk <> 0 /\ Rabs pk <= Rabs uk * tr_sn dyn11) /\ 0 <= tr_i0 dyn11 /\ Rabs (tr_p0 dyn11) <= tr_i0 dyn11 * tr_sn dyn11.
Proof.
  eexists. split; [reflexivity|]. unfold dyn11, tap_voltage, adjust, tap_adjust_impedance. cbn. split; [lra|]. split; [|split; [lra|rewrite Rabs_right; lra]].
  split; [lra|]. rewrite !Rabs_right by lra. lra.
Qed.
(** so the theorem on transformers holds of it, whichever side is open *)
Example dyn11_circuit : exists (par : transformer_par) (z y : C), transformer_calc dyn11 10000 400 = Some par /\
  forall fs ts : bool, open_end_regular fs ts 400 z y -> forall uf ut i_f i_t : C,
  injects complex_ops (calc_param_sym complex_ops fs ts true (KTransformer par)) uf ut i_f i_t <->
  si_circuit fs ts z y (cscale (11000 / 420) (cexp (11 * (PI / 6)))) 10000 400 uf ut i_f i_t.
Proof.
  destruct dyn11_regular as (t & E & U & (H1 & H2) & H3 & H4).
  assert (S : 0 < tr_sn dyn11) by (cbn; lra). assert (A1 : 0 < 10000) by lra. assert (A2 : 0 < 400) by lra.
  pose proof (C62_transformer dyn11 t 11 10000 400 E A1 A2 S) as Q.
  change (tr_tap_at_from dyn11) with true in Q. cbv iota beta zeta in Q. rewrite U in Q.
  assert (A3 : 0 < 11000) by lra. assert (A4 : 0 < tr_u2 dyn11) by (cbn; lra). specialize (Q A3 A4 H1 H2 H3 H4).
  destruct Q as (par & z & y & P & _ & _ & Q). exists par, z, y. split; [exact P|]. intros fs ts R. apply (Q fs ts R).
Qed.

(** A line with a neutral: the wires are coupled by 0.1 ohm each way, of one ohm each. *)
Definition coupled : tri4 := mkTri4 (mkTri 1 1 1 (1 / 10) (1 / 10) (1 / 10)) 1 (1 / 10) (1 / 10) (1 / 10).
Definition nothing : tri4 := mkTri4 (mkTri 0 0 0 0 0 0) 0 0 0 0.
Example four_wires_regular : series_regular (four_wires coupled nothing).
Proof.
  split; [|cbn; intros E; injection E; lra]. intros E. apply (f_equal re) in E. unfold det in E.
  cbn [compute_z_series_from_input] in E. unfold kron_reduction, tensor6, of_tri4, of_tri, coupled, nothing, tensor6 in E.
  cbn [t4_abc t_nn t_na t_nb t_nc t_aa t_bb t_cc t_ba t_ca t_cb complex_ops c_add c_sub c_mul] in E.
  unfold cadd, csub, cmul, cinv, norm2, re, im in E. cbn [fst snd] in E. revert E. match goal with |- ?x = _ -> _ => assert (V : x = 9477 / 10000) end; [field|]. lra.
Qed.

(** A three-winding transformer with rated voltages 150, 20 and 10 kV, YNyn0d5: the clocks are allowed, and none of the three impedances is zero. *)
Definition ynyn0d5 : three_winding_in :=
  mkThreeWindingIn 150000 20000 10000 60000000 40000000 20000000 (12 / 100) (18 / 100) (9 / 100) 0 0 0 (1 / 1000) 30000 WyeN WyeN Delta 0 5 None None None None None None.
Example ynyn0d5_regular : is_valid_clock 0 WyeN WyeN = true /\ is_valid_clock 5 WyeN Delta = true /\
  let '(t1, t2, t3) := convert_to_two_winding_transformers ynyn0d5 in leg_z t1 <> (0, 0) /\ leg_z t2 <> (0, 0) /\ leg_z t3 <> (0, 0).
Proof.
  split; [reflexivity|]. split; [reflexivity|]. unfold convert_to_two_winding_transformers, calculate_uk, calculate_pk, ynyn0d5.
  cbn [real_ops r_add r_sub r_mul r_div r_min r_1 w3_u1 w3_u2 w3_u3 w3_sn1 w3_sn2 w3_sn3 w3_uk12 w3_uk13 w3_uk23 w3_pk12 w3_pk13 w3_pk23].
  rewrite (Rmin_right 60000000 40000000), (Rmin_right 60000000 20000000), (Rmin_right 40000000 20000000) by lra. unfold leg_z. cbn [tr_uk tr_pk tr_u2 tr_sn leg].
  repeat match goal with |- context [z_series ?a ?b 150000 ?c] => lazymatch b with 0 => fail | _ => replace b with 0 by field end end. rewrite !lossless by lra.
  split; [|split]; intros E; injection E; lra.
Qed.

Print Assumptions C62_three_winding_circuit.
Print Assumptions C62_reported.
Print Assumptions C62_line.
Print Assumptions C62_generic_branch.
Print Assumptions C62_transformer.
Print Assumptions C62_zero_sequence.
Print Assumptions C62_asym_line.
Print Assumptions C62_wires.
Print Assumptions C62_sequence_capacitances.
Print Assumptions C62_three_winding_partial.
Print Assumptions C62_three_winding_refuted.
Print Assumptions C62_delta_winding.
Print Assumptions C62_delta_refuted.
