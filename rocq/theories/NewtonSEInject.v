(** C57: the rows of the injections, and the multipliers. *)
From Coq Require Import Reals Lra Field.
From Verif Require Import Common Numbers NumbersPair LinearSE NewtonReals NewtonSE NewtonSESpec NewtonSEFacts NewtonSERows NewtonSEWeak.
Local Open Scope R_scope.

Local Notation cxo := (pair_num real_num). Local Notation conj := (cconj real_num). Local Notation ctimes := (cmul real_num). Local Notation cplus := (cadd real_num). Local Notation cminus := (csub real_num).
Local Notation sum f l := (nsum real_num (map f l)).

Section Inject.
Variables (n n_branch : nat) (branch_bus : nat -> bool -> option nat) (shunts : nat -> list nat).
Variables (branch_param : nat -> bool -> bool -> nat -> nat -> R * R) (shunt_param : nat -> nat -> nat -> R * R) (ybus : nat -> nat -> nat -> nat -> R * R) (slack_bus : nat).
Variables (voltage : nat -> option (voltage_sensor (R := R))) (branch_power : nat -> bool -> option (flow (R := R))) (branch_current : nat -> bool -> option (angle_type * flow (R := R))).
Variables (shunt_power bus_injection : nat -> option (flow (R := R))) (reference : nat -> R).
Local Notation injected := (NewtonSESpec.injected 1 n ybus). Local Notation through := (NewtonSESpec.through 1).
Local Notation quantity_at := (NewtonSESpec.quantity_at 1 n branch_bus branch_param shunt_param ybus).
Variable xs : nat -> unknown (R := R).
Local Notation x := (here xs). Local Notation D := (NewtonSEFacts.D 1 n branch_bus branch_param shunt_param ybus (here xs)).
Local Notation u := (phasors real_num cos sin xs).
Local Notation row := (NewtonSE.row (R := R)). Local Notation gain := (NewtonSE.gain (R := R)).
Hypothesis v_nonzero : forall b, (b < n)%nat -> v (xs b) 0%nat <> 0.
Local Notation add_element := (NewtonSE.add_element real_num 1 branch_param shunt_param branch_power branch_current shunt_power xs u).
Local Notation add_voltage := (NewtonSE.add_voltage real_num real_abs real_arg 1 n slack_bus voltage reference xs).
Local Notation add_injection := (NewtonSE.add_injection real_num 1 ybus bus_injection xs u).
Local Notation elements := (LinearSE.elements n_branch branch_bus shunts).
Local Notation add_column := (NewtonSE.add_column real_num real_abs real_arg 1 n n_branch branch_bus shunts branch_param shunt_param ybus slack_bus voltage branch_power branch_current shunt_power bus_injection reference xs u).
Local Notation build_row := (NewtonSE.build_row real_num real_abs real_arg 1 n n_branch branch_bus shunts branch_param shunt_param ybus slack_bus voltage branch_power branch_current shunt_power bus_injection reference xs u).

(** ** What is not touched by the other terms *)
Definition same_q (r r' : row) : Prop :=
  (forall j, q_pt (r_gain r j) = q_pt (r_gain r' j) /\ q_pv (r_gain r j) = q_pv (r_gain r' j) /\ q_qt (r_gain r j) = q_qt (r_gain r' j) /\ q_qv (r_gain r j) = q_qv (r_gain r' j) /\
             r_p (r_gain r j) = r_p (r_gain r' j) /\ r_q (r_gain r j) = r_q (r_gain r' j)) /\ tau_p (r_rhs r) = tau_p (r_rhs r') /\ tau_q (r_rhs r) = tau_q (r_rhs r').
Lemma same_refl r : same_q r r. Proof. repeat split. Qed.
Lemma same_trans a b c : same_q a b -> same_q b c -> same_q a c.
Proof.
  intros [H1 [H2 H3]] [G1 [G2 G3]]. split; [|split; congruence]. intros j. destruct (H1 j) as (A1 & A2 & A3 & A4 & A5 & A6), (G1 j) as (B1 & B2 & B3 & B4 & B5 & B6).
  repeat split; congruence.
Qed.
Lemma same_entry r c h : (forall g, q_pt (h g) = q_pt g /\ q_pv (h g) = q_pv g /\ q_qt (h g) = q_qt g /\ q_qv (h g) = q_qv g /\ r_p (h g) = r_p g /\ r_q (h g) = r_q g) -> same_q (at_entry r c h) r.
Proof. intros H. split; [|split; reflexivity]. intros j. unfold at_entry. cbn [r_gain]. destruct (j =? c)%nat; [apply H|repeat split]. Qed.
Lemma same_rhs r h : (forall g, tau_p (h g) = tau_p g /\ tau_q (h g) = tau_q g) -> same_q (at_rhs r h) r.
Proof. intros H. split; [intros j; repeat split|]. apply H. Qed.
Lemma same_blocks b c l r' m f r : same_q (multiply_add_branch_blocks real_num 1 b c l r' m f r) r.
Proof.
  unfold multiply_add_branch_blocks. eapply same_trans; [apply same_rhs; intros; split; reflexivity|].
  eapply same_trans; [apply same_entry; intros; repeat split|]. apply same_entry; intros; repeat split.
Qed.
Lemma same_element b c r el : same_q (add_element b c r el) r.
Proof.
  destruct el as [k|k b0 b1]; cbn [NewtonSE.add_element].
  - destruct (shunt_power k); [|apply same_refl]. unfold add_shunt. eapply same_trans; [apply same_rhs; intros; split; reflexivity|]. apply same_entry; intros; repeat split.
  - destruct (Bool.eqb b0 b1); [apply same_refl|]. generalize (branch_flows branch_power branch_current k). intros l. revert r. induction l as [|s l IH]; intros r; [apply same_refl|].
    cbn [fold_left]. eapply same_trans; [apply IH|]. unfold add_flow. cbv zeta. destruct (Bool.eqb (fst (fst s)) b0).
    + destruct (flow_jacobian _ _ _ _ _ _ _ _ _) as [[j1 j2] f]. apply same_blocks.
    + destruct (flow_jacobian _ _ _ _ _ _ _ _ _) as [[j1 j2] f]. apply same_blocks.
Qed.
Lemma same_elements b c l : forall r, same_q (fold_left (add_element b c) l r) r.
Proof. induction l as [|el l IH]; intros r; [apply same_refl|]. cbn [fold_left]. eapply same_trans; [apply IH|apply same_element]. Qed.
Lemma same_voltage b r : same_q (add_voltage b r) r.
Proof.
  unfold NewtonSE.add_voltage. destruct (voltage b); [|apply same_refl]. eapply same_trans; [apply same_rhs; intros; split; reflexivity|]. apply same_entry; intros; repeat split.
Qed.

(** ** The rows of the injections *)
Section Form.
Variable z : volts.
Definition q_form (r : row) : R * R :=
  (sum (fun j => q_pt (r_gain r j) 0%nat 0%nat * ang z j 0%nat + q_pv (r_gain r j) 0%nat 0%nat * mag z j 0%nat) (seq 0 n),
   sum (fun j => q_qt (r_gain r j) 0%nat 0%nat * ang z j 0%nat + q_qv (r_gain r j) 0%nat 0%nat * mag z j 0%nat) (seq 0 n)).
Definition tau (r : row) : R * R := (tau_p (r_rhs r) 0%nat, tau_q (r_rhs r) 0%nat).
Lemma q_same r r' : same_q r r' -> q_form r = q_form r' /\ tau r = tau r'.
Proof.
  intros [H [H1 H2]]. split; [|unfold tau; rewrite H1, H2; reflexivity]. unfold q_form.
  apply f_equal2; apply sum_ext; intros j _; destruct (H j) as (A1 & A2 & A3 & A4 & _); [rewrite A1, A2|rewrite A3, A4]; reflexivity.
Qed.
Lemma q_entry r c j : (c < n)%nat -> q_form (at_entry r c (add_injection_jacobian real_num j)) = cplus (q_form r) (jac_at j z c).
Proof.
  intros Hc. unfold q_form, at_entry. cbn [r_gain].
  rewrite (sum_change (fun j k => q_pt k 0%nat 0%nat * ang z j 0%nat + q_pv k 0%nat 0%nat * mag z j 0%nat) (r_gain r) (add_injection_jacobian real_num j) n c Hc).
  rewrite (sum_change (fun j k => q_qt k 0%nat 0%nat * ang z j 0%nat + q_qv k 0%nat 0%nat * mag z j 0%nat) (r_gain r) (add_injection_jacobian real_num j) n c Hc).
  unfold add_injection_jacobian, jac_at, tplus. cbn [q_pt q_pv q_qt q_qv]. unfold cadd, re, im. cbn [fst snd n_add real_num]. apply f_equal2; ring.
Qed.
Lemma q_set r c p q : q_form (at_entry r c (set_r p q)) = q_form r.
Proof. unfold q_form, at_entry. cbn [r_gain]. apply f_equal2; apply sum_ext; intros j _; destruct (j =? c)%nat; reflexivity. Qed.
(** the part of a bus in the injection of another, and its derivative *)
Definition part_of (b c : nat) : R * R := ctimes (phasor_of x b 0%nat) (conj (through (ybus b c) (phasor_of x c) 0%nat)).
Definition dpart_of (b c : nat) : R * R := dproduct (phasor_of x b 0%nat) (dphasor x z b 0%nat) (through (ybus b c) (phasor_of x c) 0%nat) (through (ybus b c) (dphasor x z c) 0%nat).
Lemma q_row b c r : (b < n)%nat -> (c < n)%nat ->
  q_form (add_injection_row real_num 1 ybus xs u b c r) = cplus (q_form r) (dpart_of b c) /\ tau (add_injection_row real_num 1 ybus xs u b c r) = cminus (tau r) (part_of b c).
Proof.
  intros Hb Hc. pose proof (v_nonzero b Hb) as Vb. pose proof (v_nonzero c Hc) as Vc. unfold add_injection_row. split.
  - assert (E : forall r h, q_form (at_rhs r h) = q_form r) by reflexivity. rewrite E, !q_entry by assumption. clear E.
    unfold dpart_of, dproduct. rewrite !through_1. unfold jac_at, calculate_jacobian, jacobian_diagonal_component; cbn [dp_dt dp_dv dq_dt dq_dv]. unfold diag, vneg, vre, vim, weigh_value; cbn [Nat.eqb]; rewrite ?sum_row_1.
    unfold columns, hm_complex_form, outer, tconj, rscale, vinv, phasors, phasor, phasor_of, dphasor, here. open_cx. cbn [mag ang]. apply f_equal2; field; auto.
  - unfold tau, at_rhs. cbn [r_rhs at_entry tau_p tau_q]. unfold NewtonSE.vminus, vre, vim. rewrite sum_row_1. unfold part_of. rewrite through_1.
    unfold hm_complex_form, outer, tconj, phasors, phasor, phasor_of, here. open_cx. cbn [mag ang]. apply f_equal2; ring.
Qed.
Lemma cx_cons (f : nat -> R * R) j l : nsum cxo (map f (j :: l)) = cplus (f j) (nsum cxo (map f l)). Proof. reflexivity. Qed.
Lemma take_sum c (f : nat -> R * R) (l : list nat) : take c (nsum cxo (map f l)) = sum (fun j => take c (f j)) l.
Proof. induction l as [|j l IH]; [destruct c; reflexivity|]. rewrite sum_cons, <- IH. destruct c; reflexivity. Qed.
Lemma pair_sum (f : nat -> R * R) (l : list nat) : nsum cxo (map f l) = (sum (fun j => fst (f j)) l, sum (fun j => snd (f j)) l).
Proof. rewrite (surjective_pairing (nsum cxo (map f l))). apply f_equal2; [apply (take_sum active f l)|apply (take_sum reactive f l)]. Qed.
Lemma cx_sum_ext (f g : nat -> R * R) l : (forall j, f j = g j) -> nsum cxo (map f l) = nsum cxo (map g l).
Proof. intros H. rewrite !pair_sum. apply f_equal2; apply sum_ext; intros j _; rewrite H; reflexivity. Qed.
Lemma conj_sum (a : R * R) (f : nat -> R * R) (l : list nat) : ctimes a (conj (nsum cxo (map f l))) = nsum cxo (map (fun j => ctimes a (conj (f j))) l).
Proof.
  induction l as [|j l IH]; [cbn; unfold cmul, cconj, re, im; cbn; apply f_equal2; ring|]. transitivity (cplus (ctimes a (conj (f j))) (ctimes a (conj (nsum cxo (map f l))))); [rewrite cx_cons; open_cx; apply f_equal2; ring|].
  exact (f_equal (cplus (ctimes a (conj (f j)))) IH).
Qed.
Lemma injection_value b : both (injection_of b) (fun q => quantity_at q x) = nsum cxo (map (part_of b) (seq 0 n)).
Proof.
  unfold both, NewtonSESpec.quantity_at, NewtonSESpec.injected. rewrite conj_sum. unfold part_of, take. rewrite <- surjective_pairing. reflexivity.
Qed.
Lemma cx_sum_plus (f g : nat -> R * R) (l : list nat) : nsum cxo (map (fun j => cplus (f j) (g j)) l) = cplus (nsum cxo (map f l)) (nsum cxo (map g l)).
Proof. rewrite !pair_sum. unfold cadd, re, im. cbn [fst snd n_add real_num]. rewrite !sum_plus. reflexivity. Qed.
Lemma injection_derivative b : both (injection_of b) (fun q => D q z) = nsum cxo (map (dpart_of b) (seq 0 n)).
Proof.
  unfold both, NewtonSEFacts.D, NewtonSESpec.injected, dproduct. rewrite !conj_sum, <- cx_sum_plus. unfold dpart_of, take, dproduct. rewrite <- surjective_pairing. reflexivity.
Qed.

Lemma q_column b c r : (b < n)%nat -> (c < n)%nat ->
  q_form (add_column b r c) = cplus (q_form r) (match bus_injection b with Some _ => dpart_of b c | None => (0, 0) end) /\
  tau (add_column b r c) = match bus_injection b with Some m => cplus (cminus (tau r) (part_of b c)) (if (b =? c)%nat then f_value m 0%nat else (0, 0)) | None => tau r end.
Proof.
  intros Hb Hc. unfold NewtonSE.add_column. set (r1 := fold_left _ _ _). assert (S1 : same_q r1 r).
  { unfold r1. eapply same_trans; [apply same_elements|]. destruct (b =? c)%nat; [apply same_voltage|apply same_refl]. }
  destruct (q_same _ _ S1) as [E1 E2]. unfold NewtonSE.add_injection. destruct (bus_injection b) as [m|]; cbv zeta.
  - destruct (q_row b c r1 Hb Hc) as [E3 E4]. rewrite E1 in E3. rewrite E2 in E4. destruct (b =? c)%nat.
    + unfold add_injection_diagonal. split.
      * assert (E : forall r h, q_form (at_rhs r h) = q_form r) by reflexivity. rewrite E, q_set. exact E3.
      * rewrite <- E4. unfold tau, at_rhs. cbn [r_rhs at_entry tau_p tau_q]. unfold NewtonSE.vplus, vre, vim. open_cx. reflexivity.
    + split; [exact E3|]. rewrite E4. open_cx. apply f_equal2; ring.
  - destruct (b =? c)%nat.
    + split; [rewrite q_set, E1; destruct (q_form r) as [qa qb]; open_cx; apply f_equal2; ring|]. rewrite <- E2. reflexivity.
    + split; [rewrite E1; destruct (q_form r) as [qa qb]; open_cx; apply f_equal2; ring|exact E2].
Qed.
Lemma q_columns b : (b < n)%nat -> forall l r, (forall c, In c l -> (c < n)%nat) ->
  q_form (fold_left (add_column b) l r) = cplus (q_form r) (match bus_injection b with Some _ => nsum cxo (map (dpart_of b) l) | None => (0, 0) end) /\
  tau (fold_left (add_column b) l r) =
    match bus_injection b with Some m => cplus (cminus (tau r) (nsum cxo (map (part_of b) l))) (nsum cxo (@map nat (R * R) (fun c => if (b =? c)%nat then f_value m 0%nat else (0, 0)) l)) | None => tau r end.
Proof.
  intros Hb. induction l as [|c l IH]; intros r H.
  - cbn [fold_left map nsum]. change (n_zero cxo) with (0, 0). split; [destruct (q_form r) as [qa qb]; destruct (bus_injection b)|destruct (tau r) as [ta tb]; destruct (bus_injection b); [|reflexivity]];
      open_cx; unfold nsum; cbn [fold_right n_zero real_num pair_num fst snd]; apply f_equal2; ring.
  - cbn [fold_left]. destruct (IH (add_column b r c) (fun c' Hc' => H c' (or_intror Hc'))) as [E1 E2].
    destruct (q_column b c r Hb (H c (or_introl eq_refl))) as [E3 E4]. rewrite E1, E2, E3, E4.
    destruct (bus_injection b); split; try reflexivity; rewrite ?cx_cons; destruct (b =? c)%nat; open_cx; apply f_equal2; ring.
Qed.
Lemma cx_pick (f : R * R) b : (b < n)%nat -> nsum cxo (map (fun c => if (b =? c)%nat then f else (0, 0)) (seq 0 n)) = f.
Proof.
  intros Hb. rewrite pair_sum. rewrite (sum_ext (fun j => fst (if (b =? j)%nat then f else (0, 0))) (fun j => if (b =? j)%nat then fst f else 0)), (sum_pick (fun _ => fst f) n b Hb) by (intros j _; destruct (b =? j)%nat; reflexivity).
  rewrite (sum_ext (fun j => snd (if (b =? j)%nat then f else (0, 0))) (fun j => if (b =? j)%nat then snd f else 0)), (sum_pick (fun _ => snd f) n b Hb) by (intros j _; destruct (b =? j)%nat; reflexivity).
  symmetry. apply surjective_pairing.
Qed.
Theorem q_of_row b : (b < n)%nat -> q_form (build_row b) = match bus_injection b with Some _ => both (injection_of b) (fun q => D q z) | None => (0, 0) end.
Proof.
  intros Hb. unfold NewtonSE.build_row. rewrite (proj1 (q_columns b Hb (seq 0 n) (no_row real_num) (fun c Hc => proj2 (proj1 (in_seq n 0 c) Hc)))).
  assert (E : q_form (no_row real_num) = (0, 0)).
  { unfold q_form. apply f_equal2; apply sum_zero; intros; cbn [no_row r_gain no_gain q_pt q_pv q_qt q_qv]; unfold t0; cbn; ring. }
  rewrite E, injection_derivative. destruct (bus_injection b); open_cx; [|apply f_equal2; ring]. set (t := nsum cxo _). rewrite !Rplus_0_l. symmetry. apply surjective_pairing.
Qed.
Theorem tau_of_row b : (b < n)%nat -> tau (build_row b) = match bus_injection b with Some m => cminus (f_value m 0%nat) (both (injection_of b) (fun q => quantity_at q x)) | None => (0, 0) end.
Proof.
  intros Hb. unfold NewtonSE.build_row. rewrite (proj2 (q_columns b Hb (seq 0 n) (no_row real_num) (fun c Hc => proj2 (proj1 (in_seq n 0 c) Hc)))).
  rewrite injection_value. destruct (bus_injection b) as [m|]; [|reflexivity]. rewrite cx_pick by exact Hb. unfold tau. cbn [no_row r_rhs tau_p tau_q]. unfold v0. open_cx. apply f_equal2; ring.
Qed.
End Form.

(** ** The blocks of the multipliers *)
Definition r_entry (b j : nat) : R * R :=
  if (b =? j)%nat then match bus_injection b with Some m => (- f_p_var m 0%nat, - f_q_var m 0%nat) | None => (- (1), - (1)) end else (0, 0).
Definition r_at (r : row) (j : nat) : R * R := (r_p (r_gain r j) 0%nat 0%nat, r_q (r_gain r j) 0%nat 0%nat).
Lemma r_same r r' j : same_q r r' -> r_at r j = r_at r' j.
Proof. intros [H _]. destruct (H j) as (_ & _ & _ & _ & A5 & A6). unfold r_at. rewrite A5, A6. reflexivity. Qed.
Lemma r_column b c r j : r_at (add_column b r c) j = if (b =? c)%nat && (b =? j)%nat then r_entry b j else r_at r j.
Proof.
  unfold NewtonSE.add_column. set (r1 := fold_left _ _ _). assert (S1 : same_q r1 r).
  { unfold r1. eapply same_trans; [apply same_elements|]. destruct (b =? c)%nat; [apply same_voltage|apply same_refl]. }
  rewrite <- (r_same _ _ j S1). unfold NewtonSE.add_injection, r_entry. destruct (bus_injection b) as [m|]; cbv zeta.
  - assert (E : forall r, r_at (add_injection_row real_num 1 ybus xs u b c r) j = r_at r j).
    { intros r2. unfold add_injection_row, r_at, at_rhs, at_entry. cbn [r_gain]. destruct (j =? b)%nat, (j =? c)%nat; reflexivity. }
    destruct (b =? c)%nat; cbn [andb]; [|apply E]. rewrite (Nat.eqb_sym b j), <- (E r1). generalize (add_injection_row real_num 1 ybus xs u b c r1). intros r2.
    unfold add_injection_diagonal, r_at, at_rhs, at_entry. cbn [r_gain]. destruct (j =? b)%nat; reflexivity.
  - destruct (b =? c)%nat; cbn [andb]; [|reflexivity]. rewrite (Nat.eqb_sym b j). unfold r_at, at_entry. cbn [r_gain]. destruct (j =? b)%nat; reflexivity.
Qed.
Lemma r_columns b j : forall l r, r_at (fold_left (add_column b) l r) j = if existsb (fun c => (b =? c)%nat) l && (b =? j)%nat then r_entry b j else r_at r j.
Proof.
  induction l as [|c l IH]; intros r; [reflexivity|]. cbn [fold_left existsb]. rewrite IH, r_column. destruct (existsb _ l), (b =? c)%nat, (b =? j)%nat; reflexivity.
Qed.
Theorem r_of_row b j : (b < n)%nat -> r_at (build_row b) j = r_entry b j.
Proof.
  intros Hb. unfold NewtonSE.build_row. rewrite r_columns. assert (E : existsb (fun c => (b =? c)%nat) (seq 0 n) = true).
  { apply existsb_exists. exists b. split; [apply in_seq; clear - Hb; lia|apply Nat.eqb_refl]. }
  rewrite E. unfold r_entry. cbn [andb]. destruct (b =? j)%nat; reflexivity.
Qed.
End Inject.
