(** C64: generic branches and lines with matrices of impedances as connections. *)
From Coq Require Import Reals ZArith Lra Lia Bool.
From Verif Require Import Common NatMap GroupedIdx Numbers ShortCircuit PowerFlow PowerFlowSpec BalancedSpec BalancedGrid YBus YBusSpec Component Taps Units UnitsFacts Ratings RatingsSpec RatingsFacts RatingsProps LossesSpec LossesFacts LossesProps LossesMore RatingsZero SolvableSpec SolvableFacts SolvableKernel SolvableProps SolvableMore.
From Verif Require Import TwoPort TwoPortSpec TwoPortFacts.
Local Open Scope R_scope.

(** Generic branches with a resistance; they take part in symmetric calculations only. *)
Theorem C64_generic_branch : forall (u2 : R) (i : generic_in), 0 < u2 -> 0 < gi_r1 i -> 0 <= gi_g1 i -> (match gi_k i with Some k => k | None => 1 end) <> 0 ->
  connects (calc_param_sym complex_ops true true true (generic_new u2 i)).
Proof.
  intros u2 i U R1 G K. unfold calc_param_sym. cbn [energized andb orb sym_calc_param generic_new].
  apply closed_connects; [apply Rmult_lt_0_compat; [apply Rinv_0_lt_compat; now apply base_y_pos|apply re_inv_pos; assumption]|apply Rmult_le_pos; [now apply base_y_inv|assumption]|].
  apply scale_nz; [exact K|]. intros E. pose proof (f_equal norm2 E) as Q. unfold norm2, cexp in Q. cbn [re im fst snd] in Q. pose proof (sin2_cos2 (match gi_theta i with Some t => fmod t (2 * PI) | None => 0 end)) as T. unfold Rsqr in T. lra.
Qed.

(** ** Matrices of resistances: every current, not zero, loses power *)
Definition loses (r : phase -> phase -> R) : Prop := forall x : phase -> R, (exists p, x p <> 0) ->
  0 < x PhA * (r PhA PhA * x PhA + r PhA PhB * x PhB + r PhA PhC * x PhC) + x PhB * (r PhB PhA * x PhA + r PhB PhB * x PhB + r PhB PhC * x PhC)
       + x PhC * (r PhC PhA * x PhA + r PhC PhB * x PhB + r PhC PhC * x PhC).
Definition loses4 (r : wire -> wire -> R) : Prop := forall x : wire -> R, (exists w, x w <> 0) ->
  let row v := x v * (r v (conductor PhA) * x (conductor PhA) + r v (conductor PhB) * x (conductor PhB) + r v (conductor PhC) * x (conductor PhC) + r v neutral * x neutral) in
  0 < row (conductor PhA) + row (conductor PhB) + row (conductor PhC) + row neutral.
Definition losing_series (s : series_in) : Prop := match s with three_wires r _ => loses (of_tri r) | four_wires r _ => loses4 (of_tri4 r) end.
Lemma parts {A} (u : A -> C) : (exists x, u x <> (0, 0)) -> (exists x, re (u x) <> 0) \/ (exists x, im (u x) <> 0).
Proof.
  intros (x & H). destruct (Req_dec (re (u x)) 0) as [E|E]; [|left; exists x; exact E]. destruct (Req_dec (im (u x)) 0) as [E'|E']; [|right; exists x; exact E'].
  exfalso. apply H. apply c_eq; assumption.
Qed.
Lemma loses_dissipative r : loses r -> dissipative r.
Proof.
  intros H x. destruct (Req_dec (x PhA) 0) as [A|A]; [|left; apply H; exists PhA; exact A]. destruct (Req_dec (x PhB) 0) as [B|B]; [|left; apply H; exists PhB; exact B].
  destruct (Req_dec (x PhC) 0) as [D|D]; [|left; apply H; exists PhC; exact D]. rewrite A, B, D. right. ring.
Qed.
Lemma loses4_dissipative r : loses4 r -> dissipative4 r.
Proof.
  intros H x. destruct (Req_dec (x (conductor PhA)) 0) as [A|A]; [|left; apply H; eexists; exact A]. destruct (Req_dec (x (conductor PhB)) 0) as [B|B]; [|left; apply H; eexists; exact B].
  destruct (Req_dec (x (conductor PhC)) 0) as [D|D]; [|left; apply H; eexists; exact D]. destruct (Req_dec (x neutral) 0) as [N|N]; [|left; apply H; eexists; exact N]. cbv zeta. rewrite A, B, D, N. right. ring.
Qed.
Lemma losing_dissipative s : losing_series s -> dissipative_series s.
Proof.
  destruct s as [r x|r x]; cbn [losing_series dissipative_series]; [apply loses_dissipative|]. intros H. split; [now apply loses4_dissipative|].
  intros [= E _]. pose proof (H (fun w => match w with neutral => 1 | _ => 0 end) (ex_intro _ neutral R1_neq_R0)) as Q. cbv beta iota zeta in Q. unfold of_tri4 in Q. rewrite E in Q. lra.
Qed.
Lemma rm_tri r x : loses (of_tri r) -> resistive_matrix (fun p q => (of_tri r p q, of_tri x p q)).
Proof.
  intros H u Hu. pose proof (loses_dissipative _ H (fun p => re (u p))) as H1. pose proof (loses_dissipative _ H (fun p => im (u p))) as H2.
  assert (S : forall a b, (0 <= a -> 0 <= b -> (0 < a \/ 0 < b) -> 0 < a + b)) by (intros; lra).
  pose proof (parts u Hu) as P. assert (P' := or_ind (fun e => or_introl (H (fun p => re (u p)) e)) (fun e => or_intror (H (fun p => im (u p)) e)) P). cbv beta in P'.
  pose proof (S _ _ H1 H2 P') as Q. clear -Q.
  match goal with |- 0 < ?v => match type of Q with 0 < ?a => assert (E : v = a) end end; [|rewrite E; exact Q].
  unfold of_tri, tensor6. unfold active3, active, dotv. cbn [complex_ops c_add c_mul]. unfold cadd, cmul, conj, re, im; cbn [fst snd]. ring.
Qed.
(** a matrix that loses power at every current has an inverse *)
Lemma no_power u (i : phase -> C) : (forall p, u p = (0, 0) \/ i p = (0, 0)) -> active3 u i = 0.
Proof.
  intros H. assert (Z : forall p, active (u p) (i p) = 0) by (intros p; destruct (H p) as [-> | ->]; unfold active, cmul, conj, re, im; cbn [fst snd]; ring).
  unfold active3. rewrite !Z. ring.
Qed.
Lemma rm_no m u : resistive_matrix m -> (exists x, u x <> (0, 0)) -> (forall p, u p = (0, 0) \/ dotv complex_ops m u p = (0, 0)) -> False.
Proof. intros H E N. pose proof (H u E) as Q. rewrite (no_power _ _ N) in Q. lra. Qed.
Lemma rm_det m : resistive_matrix m -> det complex_ops m <> (0, 0).
Proof.
  intros H.
  assert (A : m PhA PhA <> (0, 0)).
  { intros E. apply (rm_no m (fun p => match p with PhA => (1, 0) | _ => (0, 0) end) H); [exists PhA; intros [= Q]; lra|]. intros [| |]; [right|left; reflexivity|left; reflexivity].
    unfold dotv. rewrite E. cbn [complex_ops c_add c_mul]. creal; ring. }
  set (M := c_sub complex_ops (c_mul complex_ops (m PhA PhA) (m PhB PhB)) (c_mul complex_ops (m PhA PhB) (m PhB PhA))).
  assert (B : M <> (0, 0)).
  { intros E. apply (rm_no m (fun p => match p with PhA => c_neg complex_ops (m PhA PhB) | PhB => m PhA PhA | PhC => (0, 0) end) H); [exists PhB; exact A|].
    intros [| |]; [right|right|left; reflexivity].
    - unfold dotv. cbn [complex_ops c_add c_mul c_neg]. generalize (m PhA PhA), (m PhA PhB), (m PhA PhC). intros [? ?] [? ?] [? ?]. unfold cadd, cmul, cneg, re, im; cbn. f_equal; ring.
    - transitivity M; [|exact E]. unfold M, dotv. cbn [complex_ops c_add c_mul c_neg c_sub]. generalize (m PhA PhA), (m PhA PhB), (m PhB PhA), (m PhB PhB), (m PhB PhC). intros [? ?] [? ?] [? ?] [? ?] [? ?].
      unfold cadd, csub, cmul, cneg, re, im; cbn. f_equal; ring. }
  intros E. apply (rm_no m (fun p => match p with
      | PhA => c_sub complex_ops (c_mul complex_ops (m PhA PhB) (m PhB PhC)) (c_mul complex_ops (m PhA PhC) (m PhB PhB))
      | PhB => c_sub complex_ops (c_mul complex_ops (m PhA PhC) (m PhB PhA)) (c_mul complex_ops (m PhA PhA) (m PhB PhC)) | PhC => M end) H); [exists PhC; exact B|].
  intros p. right. destruct p; [| |transitivity (det complex_ops m); [|exact E]]; unfold M, dotv, det; cbn [complex_ops c_add c_mul c_neg c_sub];
    generalize (m PhA PhA), (m PhA PhB), (m PhA PhC), (m PhB PhA), (m PhB PhB), (m PhB PhC), (m PhC PhA), (m PhC PhB), (m PhC PhC); intros [? ?] [? ?] [? ?] [? ?] [? ?] [? ?] [? ?] [? ?] [? ?];
    unfold cadd, csub, cmul, cneg, re, im; cbn; f_equal; ring.
Qed.
Lemma dot_zero m (x : phase -> C) : (forall p, x p = (0, 0)) -> forall p, dotv complex_ops m x p = (0, 0).
Proof. intros H p. unfold dotv. rewrite !H. cbn [complex_ops c_add c_mul]. creal; ring. Qed.
Lemma some_or_none (x : phase -> C) : (exists p, x p <> (0, 0)) \/ forall p, x p = (0, 0).
Proof.
  assert (Q : forall p, x p = (0, 0) \/ x p <> (0, 0)).
  { intros p. destruct (c_eq0 complex_ops (x p)) eqn:E; [left; now apply (cl_eq0 complex_ops complex_laws)|right; intros F; apply (cl_eq0 complex_ops complex_laws) in F; congruence]. }
  destruct (Q PhA); [|left; eauto]. destruct (Q PhB); [|left; eauto]. destruct (Q PhC); [|left; eauto]. right. intros [| |]; assumption.
Qed.
Lemma rm_inv m : resistive_matrix m -> resistive_matrix (inv complex_ops m).
Proof.
  intros H u (x & N). pose proof (dot_inv complex_ops complex_laws m u (rm_det m H)) as Q. set (i := dotv complex_ops (inv complex_ops m) u) in *.
  rewrite active3_sym, (active3_ext _ _ _ _ (veq_refl i) (fun p => eq_sym (Q p))). apply H.
  destruct (some_or_none i) as [E|E]; [exact E|]. exfalso. apply N. rewrite <- (Q x). now apply dot_zero.
Qed.
Lemma rm_cscale k (m : @mat C) : 0 < k -> resistive_matrix m -> resistive_matrix (fun p q => cscale k (m p q)).
Proof.
  intros K H u N. specialize (H u N). assert (E : active3 u (dotv complex_ops (fun p q => cscale k (m p q)) u) = k * active3 u (dotv complex_ops m u)); [|rewrite E; now apply Rmult_lt_0_compat].
  unfold active3, active, dotv. cbn [complex_ops c_add c_mul]. unfold cadd, cmul, cscale, conj, re, im; cbn [fst snd]. ring.
Qed.
Lemma rm_add m m' : resistive_matrix m -> passive_matrix m' -> resistive_matrix (addm complex_ops m m').
Proof.
  intros H H' u N. rewrite (active3_ext _ _ _ _ (veq_refl u) (dot_add complex_ops complex_laws m m' u)), active3_add. specialize (H u N). specialize (H' u). lra.
Qed.
Lemma rm_series s : losing_series s -> resistive_matrix (compute_z_series_from_input s).
Proof.
  destruct s as [r x|r x]; cbn [compute_z_series_from_input losing_series]; [apply rm_tri|]. intros H u N.
  pose proof (losing_dissipative (four_wires r x) H) as [W NN].
  assert (Q : along_wires (fun v w => (of_tri4 r v w, of_tri4 x v w)) (dotv complex_ops (kron_reduction (fun v w => (of_tri4 r v w, of_tri4 x v w))) u) u).
  { apply kron_ok; [|exact NN|apply veq_refl]. intros v w. rewrite (tri4_symmetric r v w), (tri4_symmetric x v w). reflexivity. }
  destruct Q as [i_n Q]. pose proof (Q (conductor PhA)) as QA. pose proof (Q (conductor PhB)) as QB. pose proof (Q (conductor PhC)) as QC. pose proof (Q neutral) as QN. cbv beta iota in QA, QB, QC, QN.
  set (i := fun w : wire => match w with conductor p => u p | neutral => i_n end).
  assert (Ni : exists w, i w <> (0, 0)) by (destruct N as (p & N); exists (conductor p); exact N).
  pose proof (W (fun w => re (i w))) as H1. pose proof (W (fun w => im (i w))) as H2. cbv zeta in H1, H2.
  assert (S : forall a b, (0 <= a -> 0 <= b -> (0 < a \/ 0 < b) -> 0 < a + b)) by (intros; lra).
  assert (P' := or_ind (fun e => or_introl (H (fun p => re (i p)) e)) (fun e => or_intror (H (fun p => im (i p)) e)) (parts i Ni)). cbv beta zeta in P'.
  pose proof (S _ _ H1 H2 P') as G. clear P' H1 H2 S. unfold i in G.
  rewrite active3_sym. unfold active3. rewrite QA, QB, QC.
  assert (Z : active (0, 0) i_n = 0) by (unfold active, cmul, conj, re, im; cbn [fst snd]; ring). rewrite QN in Z.
  match goal with |- 0 < ?v => match type of G with 0 < ?a => match type of Z with ?z = 0 => assert (E : v + z = a) end end end; [|lra].
  unfold of_tri4, of_tri, tensor6 in *. cbv beta iota zeta. clear. unfold active, cadd, cmul, conj, re, im; cbn [fst snd]. ring.
Qed.
(** Lines with a matrix of impedances, closed at both sides *)
Theorem C64_asym_line : forall (f u1 u2 : R) (s : series_in) (c : capacitance_in) (b : branch_kind), asym_line_new f u1 u2 s c = Some b -> 0 < u1 -> losing_series s ->
  forall p, calc_param_asym complex_ops true true true b = Some p -> connects3 p.
Proof.
  intros f u1 u2 s c b. unfold asym_line_new. destruct (Rlt_dec _ _); [discriminate|]. intros Eb U D p Hp. apply some_eq in Eb. subst b. unfold calc_param_asym in Hp. cbn [energized andb orb asym_calc_param] in Hp.
  apply some_eq in Hp. subst p. unfold asym_line_asym. cbn [andb negb]. cbv zeta. rewrite half_c'.
  enough (Q : resistive cnum 3 a_tensor (tensor_of (addm complex_ops (fun p q => cscale (1 / base_y u1) (inv complex_ops (compute_z_series_from_input s) p q))
    (scale complex_ops (/ 2, 0) (fun p q => cscale (1 / base_y u1) (0, 2 * PI * f * compute_c_matrix_from_input c p q)))))) by (split; exact Q).
  apply resistive3, rm_add.
  - apply (rm_cscale (1 / base_y u1) (inv complex_ops (compute_z_series_from_input s))); [apply Rdiv_lt_0_compat; [lra|now apply base_y_pos]|]. apply rm_inv, rm_series, D.
  - apply pm_scale; [lra|]. apply (pm_imaginary (compute_c_matrix_from_input c)). intros x y. destruct c; destruct x, y; reflexivity.
Qed.
(** In a symmetric calculation: conductors a and b alike in themselves and towards c and the neutral, as in [C63_asym_line_symmetric]. *)
Lemma average_pos (m : @mat C) : resistive_matrix m -> m PhA PhC = m PhB PhC ->
  0 < re (c_sub complex_ops (average_of_diagonal_of_matrix complex_ops m) (average_of_off_diagonal_of_matrix complex_ops m)).
Proof.
  intros H E. set (d := fun p q : phase => fun x : phase => if phase_eqb x p then (1, 0) else if phase_eqb x q then (-1, 0) else (0, 0) : C).
  assert (N : forall p q, exists x, d p q x <> (0, 0)) by (intros p q; exists p; unfold d; destruct p; cbn; intros [= Q]; lra).
  pose proof (H (d PhA PhB) (N _ _)) as H1. pose proof (H (d PhA PhC) (N _ _)) as H2. pose proof (H (d PhB PhC) (N _ _)) as H3.
  unfold d, active3, active, dotv in H1, H2, H3. cbn [phase_eqb complex_ops c_add c_mul] in H1, H2, H3.
  unfold average_of_diagonal_of_matrix, average_of_off_diagonal_of_matrix. rewrite three_c, two_c. cbn [complex_ops c_add c_sub c_mul c_div].
  replace (cmul (2, 0) (3, 0)) with (6, 0) by (creal; ring). rewrite !real_div. rewrite E in *. clear N H d E.
  generalize dependent (m PhA PhA). intros aa. generalize dependent (m PhB PhB). intros bb. generalize dependent (m PhC PhC). intros cc. generalize dependent (m PhA PhB). intros ab.
  generalize dependent (m PhB PhA). intros ba. generalize dependent (m PhC PhA). intros ca. generalize dependent (m PhC PhB). intros cb. intros. generalize dependent (m PhB PhC). intros bc. intros.
  destruct aa, bb, cc, ab, ba, ca, cb, bc. unfold cadd, csub, cmul, cscale, conj, re, im in *; cbn [fst snd] in *. lra.
Qed.
Theorem C64_asym_line_symmetric : forall (f u1 u2 : R) (s : series_in) (c : capacitance_in) (b : branch_kind), asym_line_new f u1 u2 s c = Some b -> 0 < u1 -> losing_series s ->
  (match s with three_wires r x => alike r /\ alike x | four_wires r x => (alike (t4_abc r) /\ t_na r = t_nb r) /\ (alike (t4_abc x) /\ t_na x = t_nb x) end) ->
  connects (calc_param_sym complex_ops true true true b).
Proof.
  intros f u1 u2 s c b. unfold asym_line_new. destruct (Rlt_dec _ _); [discriminate|]. intros Eb U D A.
  assert (Q : resistive_matrix (inv complex_ops (compute_z_series_from_input s))) by (apply rm_inv, rm_series; exact D).
  assert (E : inv complex_ops (compute_z_series_from_input s) PhA PhC = inv complex_ops (compute_z_series_from_input s) PhB PhC).
  { unfold inv. f_equal. cbn [cofactor_t complex_ops c_sub c_mul]. destruct s as [r x|r x]; cbn [compute_z_series_from_input].
    - destruct A as [[A1 A2] [A3 A4]]. unfold of_tri, tensor6. rewrite A1, A2, A3, A4. creal; ring.
    - destruct A as [[[A1 A2] A5] [[A3 A4] A6]]. unfold kron_reduction, of_tri4, of_tri, tensor6. rewrite A1, A2, A3, A4, A5, A6. generalize (cinv (t_nn r, t_nn x)). intros v. creal; ring. }
  generalize dependent (inv complex_ops (compute_z_series_from_input s)). intros m Eb Q E. apply some_eq in Eb. subst b. unfold calc_param_sym.
  cbn [energized andb orb sym_calc_param]. unfold asym_line_sym. apply closed_connects; [| |apply LossesProps.one_nz].
  - apply average_pos; [|cbv beta; now rewrite E]. refine (rm_cscale (1 / base_y u1) m _ Q). apply Rdiv_lt_0_compat; [lra|now apply base_y_pos].
  - apply Req_le. unfold average_of_diagonal_of_matrix, average_of_off_diagonal_of_matrix. rewrite three_c, two_c. cbn [complex_ops c_add c_sub c_mul c_div].
    replace (cmul (2, 0) (3, 0)) with (6, 0) by (creal; ring). rewrite !real_div. unfold cadd, csub, cmul, cscale, re, im; cbn [fst snd]. ring.
Qed.
(** ** Such lines and generic branches exist *)
Example a_cable : series_in := four_wires (mkTri4 (mkTri 1 1 1 (1 / 4) (1 / 4) (1 / 4)) 1 (1 / 4) (1 / 4) (1 / 4)) (mkTri4 (mkTri (1 / 2) (1 / 2) (1 / 2) (1 / 5) (1 / 5) (1 / 5)) (1 / 2) (1 / 5) (1 / 5) (1 / 5)).
Lemma squares_pos a b c d : (a <> 0 \/ b <> 0 \/ c <> 0 \/ d <> 0) -> 0 < a * a + b * b + c * c + d * d.
Proof. intros H. pose proof (Rle_0_sqr a). pose proof (Rle_0_sqr b). pose proof (Rle_0_sqr c). pose proof (Rle_0_sqr d). unfold Rsqr in *. destruct H as [H|[H|[H|H]]]; nra. Qed.
Example a_cable_loses : losing_series a_cable.
Proof.
  unfold a_cable. cbn [losing_series]. intros x (w & N). cbv zeta. unfold of_tri4, of_tri, tensor6. cbn [t4_abc t_na t_nb t_nc t_nn t_aa t_bb t_cc t_ba t_ca t_cb].
  generalize dependent x. intros x N. 
  assert (S : 0 < x (conductor PhA) * x (conductor PhA) + x (conductor PhB) * x (conductor PhB) + x (conductor PhC) * x (conductor PhC) + x neutral * x neutral) by (apply squares_pos; destruct w as [[| |]|]; auto).
  generalize dependent (x neutral). intros n. generalize dependent (x (conductor PhA)). intros a. generalize dependent (x (conductor PhB)). intros b. generalize dependent (x (conductor PhC)). intros c S.
  pose proof (Rle_0_sqr (a + b + c + n)) as Q. unfold Rsqr in Q. 
  match goal with |- 0 < ?v => replace v with (3 / 4 * (a * a + b * b + c * c + n * n) + 1 / 4 * ((a + b + c + n) * (a + b + c + n))) by field end. lra.
Qed.
Example a_cable_connects : exists b, asym_line_new 50 400 400 a_cable (sequences 0 0) = Some b /\ connects (calc_param_sym complex_ops true true true b) /\
  forall p, calc_param_asym complex_ops true true true b = Some p -> connects3 p.
Proof.
  destruct (asym_line_new 50 400 400 a_cable (sequences 0 0)) as [b|] eqn:E.
  - exists b. split; [reflexivity|]. split; [apply (C64_asym_line_symmetric _ _ _ _ _ _ E); [lra|exact a_cable_loses|repeat split]|apply (C64_asym_line _ _ _ _ _ _ E); [lra|exact a_cable_loses]].
  - exfalso. unfold asym_line_new in E. destruct (Rlt_dec _ _) as [H|H]; [rewrite Rminus_eq_0, Rabs_R0 in H; unfold numerical_tolerance in H; lra|discriminate].
Qed.
Example a_generic_connects : connects (calc_param_sym complex_ops true true true (generic_new 400 (mkGenericIn (1 / 10) (1 / 20) 0 0 (Some (21 / 20)) (Some (PI / 6))))).
Proof. apply C64_generic_branch; cbn [gi_r1 gi_g1 gi_k]; lra. Qed.
Print Assumptions C64_generic_branch.
Print Assumptions C64_asym_line.
Print Assumptions C64_asym_line_symmetric.
