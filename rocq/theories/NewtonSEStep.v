(** C57: an iteration of the Newton-Raphson state estimation is a step of the Gauss-Newton method. *)
From Coq Require Import Reals Lra Field.
From Verif Require Import Common Numbers NumbersPair LinearSE NewtonReals NewtonSE NewtonSESpec NewtonSEFacts NewtonSERows NewtonSEWeak NewtonSEInject.
Local Open Scope R_scope.

Local Notation cxo := (pair_num real_num). Local Notation conj := (cconj real_num). Local Notation ctimes := (cmul real_num). Local Notation cplus := (cadd real_num). Local Notation cminus := (csub real_num).
Local Notation sum f l := (nsum real_num (map f l)).

(** ** The derivatives are linear; a rotation of all voltages changes only angles and the currents with a global angle *)
Section Linear.
Variables (np n : nat) (branch_bus : nat -> bool -> option nat).
Variables (branch_param : nat -> bool -> bool -> nat -> nat -> R * R) (shunt_param : nat -> nat -> nat -> R * R) (ybus : nat -> nat -> nat -> nat -> R * R).
Variable x : volts.
Local Notation flow_at := (NewtonSESpec.flow_at np branch_bus branch_param). Local Notation injected := (NewtonSESpec.injected np n ybus).
Local Notation at_side := (NewtonSESpec.at_side branch_bus). Local Notation through := (NewtonSESpec.through np).
Local Notation D := (NewtonSEFacts.D np n branch_bus branch_param shunt_param ybus x).
Definition plus_times (k : R) (a b : R * R) : R * R := (fst a + k * fst b, snd a + k * snd b).
Definition combine (k : R) (e f : volts) : volts := mkVolts (fun b p => ang e b p + k * ang f b p) (fun b p => mag e b p + k * mag f b p).
Lemma lin_sum k (f g : nat -> R * R) l : nsum cxo (map (fun j => plus_times k (f j) (g j)) l) = plus_times k (nsum cxo (map f l)) (nsum cxo (map g l)).
Proof.
  rewrite !pair_sum. unfold plus_times. cbn [fst snd]. rewrite !sum_plus, !sum_times. reflexivity.
Qed.
Lemma lin_times k c a b : ctimes c (plus_times k a b) = plus_times k (ctimes c a) (ctimes c b).
Proof. unfold plus_times. open_cx. apply f_equal2; ring. Qed.
Lemma lin_through k y f g p : through y (fun q => plus_times k (f q) (g q)) p = plus_times k (through y f p) (through y g p).
Proof.
  unfold NewtonSESpec.through. rewrite <- (lin_sum k (fun q => ctimes (y p q) (f q)) (fun q => ctimes (y p q) (g q))). apply nsum_ext. intros q _. apply lin_times.
Qed.
Lemma lin_plus k a b c d : cplus (plus_times k a b) (plus_times k c d) = plus_times k (cplus a c) (cplus b d).
Proof. unfold plus_times. open_cx. apply f_equal2; ring. Qed.
Lemma lin_flow k f g m side p : flow_at (fun b q => plus_times k (f b q) (g b q)) m side p = plus_times k (flow_at f m side p) (flow_at g m side p).
Proof.
  unfold NewtonSESpec.flow_at. rewrite <- lin_plus. f_equal.
  - destruct (branch_bus m side); [apply lin_through|unfold plus_times; cbn [fst snd]; apply f_equal2; ring].
  - destruct (branch_bus m (negb side)); [apply lin_through|unfold plus_times; cbn [fst snd]; apply f_equal2; ring].
Qed.
Lemma lin_side k f g m side p : at_side (fun b q => plus_times k (f b q) (g b q)) m side p = plus_times k (at_side f m side p) (at_side g m side p).
Proof. unfold NewtonSESpec.at_side. destruct (branch_bus m side); [reflexivity|unfold plus_times; cbn [fst snd]; apply f_equal2; ring]. Qed.
Lemma lin_injected k f g b p : injected (fun b q => plus_times k (f b q) (g b q)) b p = plus_times k (injected f b p) (injected g b p).
Proof.
  unfold NewtonSESpec.injected. rewrite <- (lin_sum k (fun j => through (ybus b j) (f j) p) (fun j => through (ybus b j) (g j) p)). apply nsum_ext. intros j _. apply lin_through.
Qed.
Lemma lin_product k a i da db di dj : dproduct a (plus_times k da db) i (plus_times k di dj) = plus_times k (dproduct a da i di) (dproduct a db i dj).
Proof. unfold dproduct, plus_times. open_cx. apply f_equal2; ring. Qed.
Lemma lin_take k c a b : take c (plus_times k a b) = take c a + k * take c b. Proof. destruct c; reflexivity. Qed.
Lemma lin_phasor k e f b p : dphasor x (combine k e f) b p = plus_times k (dphasor x e b p) (dphasor x f b p).
Proof. unfold dphasor, plus_times, combine. cbn [ang mag fst snd]. apply f_equal2; ring. Qed.
Lemma lin_direction k e f b p : ddirection x (combine k e f) b p = plus_times k (ddirection x e b p) (ddirection x f b p).
Proof. unfold ddirection, plus_times, combine. cbn [ang mag fst snd]. apply f_equal2; ring. Qed.
Lemma D_linear q k e f : D q (combine k e f) = D q e + k * D q f.
Proof.
  destruct q as [b p|b p|m side c p|m side c p|m side c p|b m c p|b c p]; cbn [NewtonSEFacts.D].
  - reflexivity.
  - reflexivity.
  - rewrite <- lin_take, <- lin_product, <- lin_flow, <- lin_side.
    rewrite (flow_ext np branch_bus branch_param _ _ m side p (lin_phasor k e f)), (side_ext branch_bus _ _ m side p (lin_phasor k e f)). reflexivity.
  - rewrite <- lin_take, <- lin_product, <- lin_flow, <- lin_side.
    rewrite (flow_ext np branch_bus branch_param _ _ m side p (lin_phasor k e f)), (side_ext branch_bus _ _ m side p (lin_direction k e f)). reflexivity.
  - rewrite <- lin_take, <- lin_flow. rewrite (flow_ext np branch_bus branch_param _ _ m side p (lin_phasor k e f)). reflexivity.
  - rewrite lin_phasor. rewrite (through_ext np _ _ _ p (lin_phasor k e f b)), lin_through, lin_product, lin_take. ring.
  - rewrite lin_phasor. rewrite (injected_ext np n ybus _ _ b p (lin_phasor k e f)), lin_injected, lin_product, lin_take. ring.
Qed.
Definition rotation : volts := mkVolts (fun _ _ => 1) (fun _ _ => 0).
Definition quarter (z : R * R) : R * R := (- snd z, fst z).
Lemma quarter_sum (f : nat -> R * R) l : nsum cxo (map (fun j => quarter (f j)) l) = quarter (nsum cxo (map f l)).
Proof.
  induction l as [|j l IH]; [cbn; unfold quarter; cbn; apply f_equal2; ring|]. rewrite !cx_cons. etransitivity; [exact (f_equal (cplus (quarter (f j))) IH)|].
  unfold quarter. open_cx. apply f_equal2; ring.
Qed.
Lemma quarter_through y f p : through y (fun q => quarter (f q)) p = quarter (through y f p).
Proof.
  unfold NewtonSESpec.through. rewrite <- (quarter_sum (fun q => ctimes (y p q) (f q))). apply nsum_ext. intros q _. unfold quarter. open_cx. apply f_equal2; ring.
Qed.
Lemma quarter_flow f m side p : flow_at (fun b q => quarter (f b q)) m side p = quarter (flow_at f m side p).
Proof.
  unfold NewtonSESpec.flow_at. destruct (branch_bus m side), (branch_bus m (negb side)); rewrite ?quarter_through; unfold quarter; open_cx; apply f_equal2; ring.
Qed.
Lemma quarter_side f m side p : at_side (fun b q => quarter (f b q)) m side p = quarter (at_side f m side p).
Proof. unfold NewtonSESpec.at_side. destruct (branch_bus m side); [reflexivity|]. unfold quarter. cbn [fst snd]. apply f_equal2; ring. Qed.
Lemma quarter_injected f b p : injected (fun b q => quarter (f b q)) b p = quarter (injected f b p).
Proof.
  unfold NewtonSESpec.injected. rewrite <- (quarter_sum (fun j => through (ybus b j) (f j) p)). apply nsum_ext. intros j _. apply quarter_through.
Qed.
Lemma quarter_product a i : dproduct a (quarter a) i (quarter i) = (0, 0).
Proof. unfold dproduct, quarter. open_cx. apply f_equal2; ring. Qed.
Lemma rotation_phasor b p : dphasor x rotation b p = quarter (phasor_of x b p).
Proof. unfold dphasor, rotation, quarter, phasor_of. cbn [ang mag fst snd]. apply f_equal2; ring. Qed.
Lemma rotation_direction b p : ddirection x rotation b p = quarter (direction_of x b p).
Proof. unfold ddirection, rotation, quarter, direction_of. cbn [ang mag fst snd]. apply f_equal2; ring. Qed.
Definition turned (q : quantity) : bool := match q with angle _ _ | global_current_of _ _ _ _ => true | _ => false end.
Lemma D_rotation q : turned q = false -> D q rotation = 0.
Proof.
  destruct q as [b p|b p|m side c p|m side c p|m side c p|b m c p|b c p]; intros T; try discriminate; cbn [NewtonSEFacts.D].
  - reflexivity.
  - rewrite (flow_ext np branch_bus branch_param _ _ m side p rotation_phasor), (side_ext branch_bus _ _ m side p rotation_phasor), quarter_flow, quarter_side, quarter_product. destruct c; reflexivity.
  - rewrite (flow_ext np branch_bus branch_param _ _ m side p rotation_phasor), (side_ext branch_bus _ _ m side p rotation_direction), quarter_flow, quarter_side, quarter_product. destruct c; reflexivity.
  - rewrite rotation_phasor, (through_ext np _ _ _ p (rotation_phasor b)), quarter_through, quarter_product. destruct c; cbn; ring.
  - rewrite rotation_phasor, (injected_ext np n ybus _ _ b p rotation_phasor), quarter_injected, quarter_product. destruct c; reflexivity.
Qed.
End Linear.

Section Step.
Variables (n n_branch : nat) (branch_bus : nat -> bool -> option nat) (shunts : nat -> list nat).
Variables (branch_param : nat -> bool -> bool -> nat -> nat -> R * R) (shunt_param : nat -> nat -> nat -> R * R) (ybus : nat -> nat -> nat -> nat -> R * R) (slack_bus : nat).
Variables (voltage : nat -> option (voltage_sensor (R := R))) (branch_power : nat -> bool -> option (flow (R := R))) (branch_current : nat -> bool -> option (angle_type * flow (R := R))).
Variables (shunt_power bus_injection : nat -> option (flow (R := R))) (reference : nat -> R).
Local Notation quantity_at := (NewtonSESpec.quantity_at 1 n branch_bus branch_param shunt_param ybus).
Variables (xs dx : nat -> unknown (R := R)).
Local Notation x := (here xs). Local Notation D := (NewtonSEFacts.D 1 n branch_bus branch_param shunt_param ybus (here xs)).
Local Notation u := (phasors real_num cos sin xs). Local Notation d := (here dx).
Hypothesis v_nonzero : forall b, (b < n)%nat -> v (xs b) 0%nat <> 0.
Hypothesis OK : measurements_ok n voltage branch_power branch_current shunt_power bus_injection.
Hypothesis BR : branches_ok n branch_bus.
Hypothesis SIDES : both_sides branch_bus branch_power branch_current.
Local Notation build_row := (NewtonSE.build_row real_num real_abs real_arg 1 n n_branch branch_bus shunts branch_param shunt_param ybus slack_bus voltage branch_power branch_current shunt_power bus_injection reference xs u).
Local Notation rhs_of := (NewtonSE.rhs_of real_num real_abs real_arg 1 n n_branch branch_bus shunts branch_param shunt_param ybus slack_bus voltage branch_power branch_current shunt_power bus_injection reference xs u).
Local Notation add_multiplier := (NewtonSE.add_multiplier real_num real_abs real_arg 1 n n_branch branch_bus shunts branch_param shunt_param ybus slack_bus voltage branch_power branch_current shunt_power bus_injection reference xs u).
Local Notation solution := (NewtonSE.solution real_num real_abs real_arg 1 n n_branch branch_bus shunts branch_param shunt_param ybus slack_bus voltage branch_power branch_current shunt_power bus_injection reference).
Local Notation measured := (NewtonSESpec.measured 1 n n_branch shunts voltage branch_power branch_current shunt_power bus_injection).
Local Notation has_angle := (NewtonSE.has_angle n voltage).
Hypothesis SOL : solution xs u dx.
(** the multipliers of the injections with a variance are never used *)
Definition phi_ok (xs : nat -> unknown (R := R)) : Prop := forall b m, bus_injection b = Some m -> (f_p_var m 0%nat <> 0 -> phi_p (xs b) 0%nat = 0) /\ (f_q_var m 0%nat <> 0 -> phi_q (xs b) 0%nat = 0).
Hypothesis PHI : phi_ok xs.

(** ** The equations *)
Lemma rhs_fold b l : forall r, let r' := fold_left (add_multiplier b) l r in
  eta_t r' 0%nat = eta_t r 0%nat + sum (fun c => q_pt (r_gain (build_row c) b) 0%nat 0%nat * phi_p (xs c) 0%nat + q_qt (r_gain (build_row c) b) 0%nat 0%nat * phi_q (xs c) 0%nat) l /\
  eta_v r' 0%nat = eta_v r 0%nat + sum (fun c => q_pv (r_gain (build_row c) b) 0%nat 0%nat * phi_p (xs c) 0%nat + q_qv (r_gain (build_row c) b) 0%nat 0%nat * phi_q (xs c) 0%nat) l /\
  tau_p r' = tau_p r /\ tau_q r' = tau_q r.
Proof.
  induction l as [|c l IH]; intros r; cbn zeta; [cbn [fold_left]; rewrite !sum_nil; repeat split; ring|]. cbn [fold_left]. destruct (IH (add_multiplier b r c)) as (E1 & E2 & E3 & E4).
  rewrite !sum_cons. rewrite E1, E2, E3, E4. unfold NewtonSE.add_multiplier. cbn [eta_t eta_v tau_p tau_q]. unfold vplus. rewrite !mvec_1. unfold qt_pt, qt_pv, qt_qt, qt_qv, transpose.
  cbn [n_add real_num]. repeat split; ring.
Qed.
Definition psi_p (c : nat) : R := phi_p (dx c) 0%nat - phi_p (xs c) 0%nat.
Definition psi_q (c : nat) : R := phi_q (dx c) 0%nat - phi_q (xs c) 0%nat.
Lemma row_is e b : (b < n)%nat ->
  row_form n d e b (build_row b) =
  - sum (fun c => psi_p c * (q_pt (r_gain (build_row c) b) 0%nat 0%nat * ang e b 0%nat + q_pv (r_gain (build_row c) b) 0%nat 0%nat * mag e b 0%nat) +
                  psi_q c * (q_qt (r_gain (build_row c) b) 0%nat 0%nat * ang e b 0%nat + q_qv (r_gain (build_row c) b) 0%nat 0%nat * mag e b 0%nat)) (seq 0 n).
Proof.
  intros Hb. destruct (SOL b 0%nat Hb Nat.lt_0_1) as (E1 & E2 & _ & _). destruct (rhs_fold b (seq 0 n) (r_rhs (build_row b))) as (F1 & F2 & _ & _).
  unfold NewtonSE.rhs_of in E1, E2. rewrite F1 in E1. rewrite F2 in E2. clear F1 F2. unfold total, vplus in E1, E2.
  assert (T1 : left_t n d (r_gain (build_row b)) - eta_t (r_rhs (build_row b)) 0%nat =
    - sum (fun c => q_pt (r_gain (build_row c) b) 0%nat 0%nat * psi_p c + q_qt (r_gain (build_row c) b) 0%nat 0%nat * psi_q c) (seq 0 n)).
  { rewrite (sum_ext _ (fun j => (g_pt (r_gain (build_row b) j) 0%nat 0%nat * theta (dx j) 0%nat + g_pv (r_gain (build_row b) j) 0%nat 0%nat * v (dx j) 0%nat) +
       (q_pt (r_gain (build_row j) b) 0%nat 0%nat * phi_p (dx j) 0%nat + q_qt (r_gain (build_row j) b) 0%nat 0%nat * phi_q (dx j) 0%nat)) (seq 0 n)) in E1.
    2:{ intros j _. rewrite !mvec_1. reflexivity. }
    rewrite sum_plus in E1. unfold psi_p, psi_q.
    rewrite (sum_ext (fun c => q_pt (r_gain (build_row c) b) 0%nat 0%nat * (phi_p (dx c) 0%nat - phi_p (xs c) 0%nat) + q_qt (r_gain (build_row c) b) 0%nat 0%nat * (phi_q (dx c) 0%nat - phi_q (xs c) 0%nat))
      (fun c => (q_pt (r_gain (build_row c) b) 0%nat 0%nat * phi_p (dx c) 0%nat + q_qt (r_gain (build_row c) b) 0%nat 0%nat * phi_q (dx c) 0%nat) -
        (q_pt (r_gain (build_row c) b) 0%nat 0%nat * phi_p (xs c) 0%nat + q_qt (r_gain (build_row c) b) 0%nat 0%nat * phi_q (xs c) 0%nat))) by (intros; ring).
    rewrite sum_minus. unfold left_t. cbn [ang mag here]. lra. }
  assert (T2 : left_v n d (r_gain (build_row b)) - eta_v (r_rhs (build_row b)) 0%nat =
    - sum (fun c => q_pv (r_gain (build_row c) b) 0%nat 0%nat * psi_p c + q_qv (r_gain (build_row c) b) 0%nat 0%nat * psi_q c) (seq 0 n)).
  { rewrite (sum_ext _ (fun j => (g_qt (r_gain (build_row b) j) 0%nat 0%nat * theta (dx j) 0%nat + g_qv (r_gain (build_row b) j) 0%nat 0%nat * v (dx j) 0%nat) +
       (q_pv (r_gain (build_row j) b) 0%nat 0%nat * phi_p (dx j) 0%nat + q_qv (r_gain (build_row j) b) 0%nat 0%nat * phi_q (dx j) 0%nat)) (seq 0 n)) in E2.
    2:{ intros j _. rewrite !mvec_1. reflexivity. }
    rewrite sum_plus in E2. unfold psi_p, psi_q.
    rewrite (sum_ext (fun c => q_pv (r_gain (build_row c) b) 0%nat 0%nat * (phi_p (dx c) 0%nat - phi_p (xs c) 0%nat) + q_qv (r_gain (build_row c) b) 0%nat 0%nat * (phi_q (dx c) 0%nat - phi_q (xs c) 0%nat))
      (fun c => (q_pv (r_gain (build_row c) b) 0%nat 0%nat * phi_p (dx c) 0%nat + q_qv (r_gain (build_row c) b) 0%nat 0%nat * phi_q (dx c) 0%nat) -
        (q_pv (r_gain (build_row c) b) 0%nat 0%nat * phi_p (xs c) 0%nat + q_qv (r_gain (build_row c) b) 0%nat 0%nat * phi_q (xs c) 0%nat))) by (intros; ring).
    rewrite sum_minus. unfold left_v. cbn [ang mag here]. lra. }
  unfold row_form. rewrite T1, T2. clear. rewrite <- !Ropp_mult_distr_r, <- Ropp_plus_distr, <- !sum_times, <- sum_plus. f_equal. apply sum_ext. intros c _. ring.
Qed.
Lemma rows_are_injections e : sum (fun b => row_form n d e b (build_row b)) (seq 0 n) =
  - sum (fun c => match bus_injection c with Some _ => psi_p c * D (injection_of c active 0%nat) e + psi_q c * D (injection_of c reactive 0%nat) e | None => 0 end) (seq 0 n).
Proof.
  rewrite (sum_ext _ _ (seq 0 n) (fun b Hb => row_is e b (proj2 (proj1 (in_seq n 0 b) Hb)))).
  rewrite (sum_ext (fun i => - _) (fun i => (- (1)) * sum (fun c => psi_p c * (q_pt (r_gain (build_row c) i) 0%nat 0%nat * ang e i 0%nat + q_pv (r_gain (build_row c) i) 0%nat 0%nat * mag e i 0%nat) +
                  psi_q c * (q_qt (r_gain (build_row c) i) 0%nat 0%nat * ang e i 0%nat + q_qv (r_gain (build_row c) i) 0%nat 0%nat * mag e i 0%nat)) (seq 0 n)) (seq 0 n)) by (intros; ring).
  rewrite sum_times, sum_swap. assert (E : forall a b, a = b -> - (1) * a = - b) by (intros; subst; ring). apply E. clear E.
  apply sum_ext. intros c Hc. rewrite sum_plus, !sum_times.
  pose proof (q_of_row n n_branch branch_bus shunts branch_param shunt_param ybus slack_bus voltage branch_power branch_current shunt_power bus_injection reference xs v_nonzero e c (proj2 (proj1 (in_seq n 0 c) Hc))) as E.
  pose proof (f_equal fst E) as E1. pose proof (f_equal snd E) as E2. unfold q_form in E1, E2. cbn [fst snd] in E1, E2. rewrite E1, E2. destruct (bus_injection c); cbn [both fst snd]; ring.
Qed.
(** the rows of the injections *)
Lemma injection_rows b m : (b < n)%nat -> bus_injection b = Some m ->
  D (injection_of b active 0%nat) d - (fst (f_value m 0%nat) - quantity_at (injection_of b active 0%nat) x) = f_p_var m 0%nat * phi_p (dx b) 0%nat /\
  D (injection_of b reactive 0%nat) d - (snd (f_value m 0%nat) - quantity_at (injection_of b reactive 0%nat) x) = f_q_var m 0%nat * phi_q (dx b) 0%nat.
Proof.
  intros Hb Hm. destruct (SOL b 0%nat Hb Nat.lt_0_1) as (_ & _ & E3 & E4). destruct (rhs_fold b (seq 0 n) (r_rhs (build_row b))) as (_ & _ & F3 & F4).
  unfold NewtonSE.rhs_of in E3, E4. rewrite F3 in E3. rewrite F4 in E4. clear F3 F4.
  pose proof (q_of_row n n_branch branch_bus shunts branch_param shunt_param ybus slack_bus voltage branch_power branch_current shunt_power bus_injection reference xs v_nonzero d b Hb) as Q.
  pose proof (tau_of_row n n_branch branch_bus shunts branch_param shunt_param ybus slack_bus voltage branch_power branch_current shunt_power bus_injection reference xs v_nonzero d b Hb) as T.
  assert (RR : forall j, r_at (build_row b) j = r_entry bus_injection b j) by (intros j; apply r_of_row; exact Hb).
  rewrite Hm in Q, T. pose proof (f_equal fst Q) as Q1. pose proof (f_equal snd Q) as Q2. pose proof (f_equal fst T) as T1. pose proof (f_equal snd T) as T2. clear Q T.
  unfold q_form in Q1, Q2. unfold tau in T1, T2. cbn [fst snd both csub re im n_sub real_num] in Q1, Q2, T1, T2. unfold re, im in T1, T2. cbn [ang mag here] in Q1, Q2.
  unfold total, vplus in E3, E4. split.
  - rewrite T1 in E3. rewrite (sum_ext _ (fun j => (q_pt (r_gain (build_row b) j) 0%nat 0%nat * theta (dx j) 0%nat + q_pv (r_gain (build_row b) j) 0%nat 0%nat * v (dx j) 0%nat) +
       (if (b =? j)%nat then - f_p_var m 0%nat * phi_p (dx j) 0%nat else 0)) (seq 0 n)) in E3.
    2:{ intros j _. rewrite !mvec_1. pose proof (f_equal fst (RR j)) as E. unfold r_at, r_entry in E. rewrite Hm in E. cbn [fst] in E. rewrite E. cbn [n_add real_num]. destruct (b =? j)%nat; cbn [fst]; ring. }
    rewrite sum_plus, Q1 in E3. rewrite (sum_pick (fun j => - f_p_var m 0%nat * phi_p (dx j) 0%nat) n b Hb) in E3. clear - E3. cbn [both fst] in E3. lra.
  - rewrite T2 in E4. rewrite (sum_ext _ (fun j => (q_qt (r_gain (build_row b) j) 0%nat 0%nat * theta (dx j) 0%nat + q_qv (r_gain (build_row b) j) 0%nat 0%nat * v (dx j) 0%nat) +
       (if (b =? j)%nat then - f_q_var m 0%nat * phi_q (dx j) 0%nat else 0)) (seq 0 n)) in E4.
    2:{ intros j _. rewrite !mvec_1. pose proof (f_equal snd (RR j)) as E. unfold r_at, r_entry in E. rewrite Hm in E. cbn [snd] in E. rewrite E. cbn [n_add real_num]. destruct (b =? j)%nat; cbn [snd]; ring. }
    rewrite sum_plus, Q2 in E4. rewrite (sum_pick (fun j => - f_q_var m 0%nat * phi_q (dx j) 0%nat) n b Hb) in E4. clear - E4. cbn [both snd] in E4. lra.
Qed.
Local Notation term := (NewtonSEWeak.term n branch_bus branch_param shunt_param ybus xs d).
Local Notation virtual_term := (NewtonSEWeak.virtual_term n slack_bus voltage reference xs d).
Definition keeps (e : volts) : Prop := forall s, In s measured -> snd (snd s) = 0 -> D (fst s) e = 0.
Lemma in_injections b m s : (b < n)%nat -> bus_injection b = Some m -> In s (NewtonSESpec.of_flow 1 (injection_of b) m) -> In s measured.
Proof.
  intros Hb Hm Hs. unfold NewtonSESpec.measured. rewrite !in_app_iff. right. right. right. apply in_flat_map. exists b. split; [apply in_seq; clear - Hb; lia|]. rewrite Hm. exact Hs.
Qed.
Lemma injections_are e : keeps e -> sum (term e) (measured_injections n bus_injection) =
  sum (fun c => match bus_injection c with Some _ => psi_p c * D (injection_of c active 0%nat) e + psi_q c * D (injection_of c reactive 0%nat) e | None => 0 end) (seq 0 n).
Proof.
  intros K. unfold measured_injections. rewrite sum_flat. apply sum_ext. intros b Hb. destruct (bus_injection b) as [m|] eqn:Hm; [|reflexivity].
  assert (Hb' : (b < n)%nat) by (apply in_seq in Hb; clear - Hb; lia). destruct (injection_rows b m Hb' Hm) as [E1 E2]. destruct (PHI b m Hm) as [P1 P2].
  unfold NewtonSESpec.of_flow. cbn [seq flat_map app]. rewrite !sum_cons, sum_nil. unfold NewtonSEWeak.term. cbn [fst snd]. rewrite E1, E2. unfold psi_p, psi_q.
  assert (A : D (injection_of b active 0%nat) e * (f_p_var m 0%nat * phi_p (dx b) 0%nat) / f_p_var m 0%nat = (phi_p (dx b) 0%nat - phi_p (xs b) 0%nat) * D (injection_of b active 0%nat) e).
  { destruct (Req_EM_T (f_p_var m 0%nat) 0) as [Z|Z].
    - assert (Z' : D (injection_of b active 0%nat) e = 0) by exact (K (injection_of b active 0%nat, (fst (f_value m 0%nat), f_p_var m 0%nat)) (in_injections b m _ Hb' Hm (or_introl eq_refl)) Z). rewrite Z'. unfold Rdiv. ring.
    - rewrite (P1 Z). field. exact Z. }
  assert (B : D (injection_of b reactive 0%nat) e * (f_q_var m 0%nat * phi_q (dx b) 0%nat) / f_q_var m 0%nat = (phi_q (dx b) 0%nat - phi_q (xs b) 0%nat) * D (injection_of b reactive 0%nat) e).
  { destruct (Req_EM_T (f_q_var m 0%nat) 0) as [Z|Z].
    - assert (Z' : D (injection_of b reactive 0%nat) e = 0) by exact (K (injection_of b reactive 0%nat, (snd (f_value m 0%nat), f_q_var m 0%nat)) (in_injections b m _ Hb' Hm (or_intror (or_introl eq_refl))) Z). rewrite Z'. unfold Rdiv. ring.
    - rewrite (P2 Z). field. exact Z. }
  rewrite A, B. ring.
Qed.
Theorem weak e : keeps e -> sum (term e) measured + sum (virtual_term e) (seq 0 n) = 0.
Proof.
  intros K. pose proof (rows_are n n_branch branch_bus shunts branch_param shunt_param ybus slack_bus voltage branch_power branch_current shunt_power bus_injection reference xs d e v_nonzero BR SIDES) as E.
  rewrite rows_are_injections, <- (injections_are e K) in E. rewrite measured_is, !sum_app. lra.
Qed.

(** ** The angle that is taken as measured *)
Lemma no_full b m : has_angle = false -> (b < n)%nat -> voltage b = Some m -> s_full m = false.
Proof.
  intros H Hb Hm. destruct (s_full m) eqn:E; [|reflexivity]. unfold NewtonSE.has_angle in H. rewrite <- H. symmetry. apply existsb_exists. exists b. split; [apply in_seq; clear - Hb; lia|]. rewrite Hm. exact E.
Qed.
Lemma of_flow_in f m s : In s (NewtonSESpec.of_flow 1 f m) -> exists c, fst s = f c 0%nat.
Proof. intros [<-|[<-|[]]]; eexists; reflexivity. Qed.
Lemma not_turned s : has_angle = false -> In s measured -> turned (fst s) = false.
Proof.
  intros H I. rewrite measured_is in I. rewrite !in_app_iff in I. destruct I as [I|[I|[I|I]]].
  - unfold measured_voltages in I. apply in_flat_map in I. destruct I as (b & Hb & I). apply in_seq in Hb. destruct (voltage b) as [m|] eqn:Em; [|destruct I].
    assert (Hb' : (b < n)%nat) by (clear - Hb; lia). cbn [seq flat_map] in I. rewrite (no_full b m H Hb' Em) in I. destruct I as [<-|[]]. reflexivity.
  - apply in_flat_map in I. destruct I as (k & _ & I). unfold measured_flows in I. apply in_flat_map in I. destruct I as (side & _ & I). apply in_app_iff in I. destruct I as [I|I].
    + destruct (branch_power k side); [|destruct I]. destruct (of_flow_in _ _ _ I) as [c ->]. reflexivity.
    + destruct (branch_current k side) as [[[|] m]|] eqn:Em; [| |destruct I]; [destruct (of_flow_in _ _ _ I) as [c ->]; reflexivity|].
      destruct (ok_global _ _ _ _ _ _ OK _ _ _ Em) as (b & s' & Hb & Es & Ef). rewrite (no_full b s' H Hb Es) in Ef. discriminate.
  - unfold measured_shunts in I. apply in_flat_map in I. destruct I as (b & _ & I). apply in_flat_map in I. destruct I as (k & _ & I). destruct (shunt_power k); [|destruct I].
    destruct (of_flow_in _ _ _ I) as [c ->]. reflexivity.
  - unfold measured_injections in I. apply in_flat_map in I. destruct I as (b & _ & I). destruct (bus_injection b); [|destruct I]. destruct (of_flow_in _ _ _ I) as [c ->]. reflexivity.
Qed.
Lemma D_turn s : has_angle = false -> In s measured -> D (fst s) rotation = 0.
Proof. intros H I. apply D_rotation. apply (not_turned s H I). Qed.
Local Notation virtual_bus := (if has_voltage voltage slack_bus then slack_bus else first_voltage n voltage).
Definition virtual_part (b : nat) : R := match voltage b with Some m => (ang d b 0%nat - (reference 0%nat - theta (xs b) 0%nat)) / s_var m | None => 0 end.
Lemma virtual_is e b : (b < n)%nat -> virtual_term e b = if has_angle then 0 else if (virtual_bus =? b)%nat then ang e b 0%nat * virtual_part b else 0.
Proof.
  intros Hb. unfold NewtonSEWeak.virtual_term, virtual_part. destruct (voltage b) as [m|] eqn:Em.
  - unfold NewtonSE.angle_measurement. rewrite (Nat.eqb_sym virtual_bus b). destruct has_angle eqn:H.
    + rewrite andb_false_r. destruct (s_full m); reflexivity.
    + rewrite (no_full b m H Hb Em), andb_true_r. destruct (b =? _)%nat; [unfold Rdiv; ring|reflexivity].
  - destruct has_angle; [reflexivity|]. destruct (_ =? b)%nat; ring.
Qed.
Lemma virtual_zero e : sum (virtual_term e) (seq 0 n) = 0.
Proof.
  rewrite (sum_ext _ _ _ (fun b Hb => virtual_is e b (proj2 (proj1 (in_seq n 0 b) Hb)))). destruct has_angle eqn:H; [apply sum_none|].
  destruct (Nat.lt_ge_cases virtual_bus n) as [L|L].
  - rewrite (sum_pick (fun b => ang e b 0%nat * virtual_part b) n virtual_bus L). pose proof (weak rotation (fun s I _ => D_turn s H I)) as W.
    rewrite (sum_zero (term rotation)) in W by (intros s I; unfold NewtonSEWeak.term; rewrite (D_turn s H I); unfold Rdiv; ring).
    rewrite (sum_ext _ _ _ (fun b Hb => virtual_is rotation b (proj2 (proj1 (in_seq n 0 b) Hb)))), H in W. rewrite (sum_pick (fun b => ang rotation b 0%nat * virtual_part b) n virtual_bus L) in W.
    assert (E : virtual_part virtual_bus = 0) by (cbn [ang rotation] in W; clear - W; lra). rewrite E. ring.
  - apply sum_zero. intros b Hb. apply in_seq in Hb. destruct (virtual_bus =? b)%nat eqn:E; [|reflexivity]. apply Nat.eqb_eq in E. exfalso. clear - Hb L E. lia.
Qed.
Theorem weak_form e : keeps e -> sum (term e) measured = 0.
Proof. intros K. pose proof (weak e K) as W. rewrite virtual_zero in W. lra. Qed.

(** ** The step *)
Variable off : R.
Hypothesis OFF : has_angle = true -> off = 0.
Definition change : volts := combine (- off) d rotation.
Lemma D_change s : In s measured -> D (fst s) change = D (fst s) d.
Proof.
  intros I. unfold change. rewrite D_linear. destruct has_angle eqn:H; [rewrite (OFF eq_refl); ring|]. rewrite (D_turn s H I). ring.
Qed.
Local Notation left_over := (NewtonSESpec.left_over 1 n branch_bus branch_param shunt_param ybus).
Local Notation exact_met := (NewtonSESpec.exact_met 1 n n_branch branch_bus shunts branch_param shunt_param ybus voltage branch_power branch_current shunt_power bus_injection).
Local Notation linear_cost := (NewtonSESpec.linear_cost 1 n n_branch branch_bus shunts branch_param shunt_param ybus voltage branch_power branch_current shunt_power bus_injection).
Lemma variance_sign s : In s measured -> 0 < snd (snd s) \/ snd (snd s) = 0 /\ exists b m, (b < n)%nat /\ bus_injection b = Some m /\ In s (NewtonSESpec.of_flow 1 (injection_of b) m).
Proof.
  intros I. rewrite measured_is in I. rewrite !in_app_iff in I. destruct I as [I|[I|[I|I]]].
  - left. unfold measured_voltages in I. apply in_flat_map in I. destruct I as (b & _ & I). destruct (voltage b) as [m|] eqn:Em; [|destruct I].
    pose proof (ok_voltage _ _ _ _ _ _ OK _ _ Em) as V. cbn [seq flat_map] in I. rewrite app_nil_r in I. destruct I as [<-|I]; [exact V|]. destruct (s_full m); [|destruct I]. destruct I as [<-|[]]. exact V.
  - left. apply in_flat_map in I. destruct I as (k & _ & I). unfold measured_flows in I. apply in_flat_map in I. destruct I as (side & _ & I). apply in_app_iff in I. destruct I as [I|I].
    + destruct (branch_power k side) as [m|] eqn:Em; [|destruct I]. destruct (ok_power _ _ _ _ _ _ OK _ _ _ 0%nat Em) as [V1 V2]. destruct I as [<-|[<-|[]]]; assumption.
    + destruct (branch_current k side) as [[t m]|] eqn:Em; [|destruct I]. destruct (ok_current _ _ _ _ _ _ OK _ _ _ _ 0%nat Em) as [V1 V2]. destruct t; destruct I as [<-|[<-|[]]]; assumption.
  - left. unfold measured_shunts in I. apply in_flat_map in I. destruct I as (b & _ & I). apply in_flat_map in I. destruct I as (k & _ & I). destruct (shunt_power k) as [m|] eqn:Em; [|destruct I].
    destruct (ok_shunt _ _ _ _ _ _ OK _ _ 0%nat Em) as [V1 V2]. destruct I as [<-|[<-|[]]]; assumption.
  - unfold measured_injections in I. apply in_flat_map in I. destruct I as (b & Hb & I). destruct (bus_injection b) as [m|] eqn:Em; [|destruct I]. apply in_seq in Hb.
    assert (Hb' : (b < n)%nat) by (clear - Hb; lia). destruct (ok_injection _ _ _ _ _ _ OK _ _ 0%nat Em) as [V1 V2].
    assert (V : 0 <= snd (snd s)) by (destruct I as [<-|[<-|[]]]; assumption). destruct V as [V|V]; [left; exact V|]. right. split; [symmetry; exact V|]. exists b, m. auto.
Qed.
Lemma exact_change : exact_met D x change.
Proof.
  intros s I Z. unfold NewtonSESpec.left_over. rewrite (D_change s I). destruct (variance_sign s I) as [V|(_ & b & m & Hb & Hm & J)]; [rewrite Z in V; exfalso; revert V; apply Rlt_irrefl|].
  destruct (injection_rows b m Hb Hm) as [E1 E2]. destruct J as [<-|[<-|[]]]; cbn [fst snd] in Z |- *; rewrite Z in *; [clear - E1|clear - E2]; lra.
Qed.
Theorem least e : exact_met D x e -> linear_cost D x change <= linear_cost D x e.
Proof.
  intros X. set (h := combine (- (1)) e change).
  assert (H : forall s, In s measured -> D (fst s) h = D (fst s) e - D (fst s) d) by (intros s I; unfold h; rewrite D_linear, (D_change s I); ring).
  assert (K : keeps h).
  { intros s I Z. rewrite (H s I). pose proof (X s I Z) as A. pose proof (exact_change s I Z) as B. unfold NewtonSESpec.left_over in A, B. rewrite (D_change s I) in B. clear - A B. lra. }
  pose proof (weak_form h K) as W. unfold NewtonSESpec.linear_cost.
  assert (E : sum (fun s => left_over D x e s * left_over D x e s / snd (snd s)) measured =
    sum (fun s => left_over D x change s * left_over D x change s / snd (snd s)) measured + (2 * sum (term h) measured + sum (fun s => D (fst s) h * D (fst s) h / snd (snd s)) measured)).
  { rewrite <- sum_times, <- !sum_plus. apply sum_ext. intros s I. unfold NewtonSEWeak.term, NewtonSESpec.left_over. rewrite (H s I), (D_change s I). unfold Rdiv. ring. }
  rewrite E, W. assert (P : 0 <= sum (fun s => D (fst s) h * D (fst s) h / snd (snd s)) measured); [|clear - P; lra].
  assert (G : forall l, (forall s, In s l -> In s measured) -> 0 <= sum (fun s => D (fst s) h * D (fst s) h / snd (snd s)) l).
  { induction l as [|s l IH]; intros L; [apply Rle_refl|]. rewrite sum_cons. apply Rplus_le_le_0_compat; [|apply IH; intros t T; apply L; right; exact T].
    destruct (variance_sign s (L s (or_introl eq_refl))) as [V|[Z _]].
    - apply Rmult_le_pos; [apply Rle_0_sqr|left; apply Rinv_0_lt_compat; exact V].
    - rewrite (K s (L s (or_introl eq_refl)) Z). unfold Rdiv. rewrite !Rmult_0_l. apply Rle_refl. }
  apply G. auto.
Qed.
End Step.
